(** C69: external matrices as views of memory they do not own. *)
From Coq Require Import List ZArith Bool Arith Lia.
From Verif Require Import Base BaseFacts HeapModel HeapSpec HeapFacts HeapProofs MatModel MatProofs MHeapModel MHeapSpec MHeapFacts ExtMatModel.
Import ListNotations.

Section Views.
Context {T : Type}.
Notation mstate := (mstate T).

(** Every object has a size. *)
Definition sized (s : mstate) : Prop := length (dims s) = length (objs (heap s)).
(** There are n elements of live memory from cell off of block b on. *)
Definition memory_at (s : mstate) (b off n : nat) : Prop := forall k, k < n -> exists x, cellat (heap s) b (off + k) = Some x.
(** Object o is an r x c matrix of layout l whose pointer is p. *)
Definition points (s : mstate) (o : nat) (p : option (nat * nat)) (r c : nat) (l : layout) : Prop :=
  (exists v, nth_error (objs (heap s)) o = Some (Some v) /\ oaddr v = p) /\ nth_error (dims s) o = Some (Dim r c l).
(** Object o is an r x c matrix over the memory that starts at cell off of block b. *)
Definition views (s : mstate) (o b off r c : nat) (l : layout) : Prop := points s o (Some (b, off)) r c l /\ memory_at s b off (r * c).
(** The memory cell of element (i, j): by rows or by columns. *)
Definition at_cell (off r c : nat) (l : layout) (i j : nat) : nat := match l with row_major => off + (i * c + j) | col_major => off + (j * r + i) end.
(** The bytes of memory, and the objects other than those satisfying [touched], are as before. *)
Definition memory_same (s s' : mstate) : Prop := blocks (heap s') = blocks (heap s) /\ sched (heap s') = sched (heap s).
Definition others_same (s s' : mstate) (touched : nat -> Prop) : Prop :=
  forall o, o < length (objs (heap s)) -> ~ touched o -> nth_error (objs (heap s')) o = nth_error (objs (heap s)) o /\ nth_error (dims s') o = nth_error (dims s) o.
(** The same result in another state. *)
Definition result_in {A} (s : mstate) (y : nres T A) : nres T A := match y with NOk a _ => NOk a s | NThrow e _ => NThrow e s | NUB u => NUB u end.

Lemma at_cell_index off r c l i j : at_cell off r c l i j = off + index l r c i j.
Proof. destruct l; reflexivity. Qed.
Lemma points_lt s o p r c l : points s o p r c l -> o < length (objs (heap s)) /\ o < length (dims s).
Proof. intros [(v & A & _) B]. split; apply nth_error_Some; congruence. Qed.
Lemma points_dim s o p r c l : points s o p r c l -> m_dim s o = Dim r c l.
Proof. intros [_ B]. apply m_dim_of; auto. Qed.
Lemma cellat_blocks (s s' : mstate) b k : memory_same s s' -> cellat (heap s') b k = cellat (heap s) b k.
Proof. intros [E _]. unfold cellat, get_block. now rewrite E. Qed.
Lemma memory_at_same (s s' : mstate) b off n : memory_same s s' -> memory_at s b off n -> memory_at s' b off n.
Proof. intros E H k Hk. destruct (H k Hk) as [x Hx]. exists x. now rewrite (cellat_blocks s s'). Qed.
Lemma points_kept s s' touched o p r c l : others_same s s' touched -> ~ touched o -> points s o p r c l -> points s' o p r c l.
Proof. intros O N P. destruct (O o (proj1 (points_lt _ _ _ _ _ _ P)) N) as [A B]. destruct P as [(v & X & Y) Z]. split; [exists v; rewrite A; auto|congruence]. Qed.
Lemma views_kept s s' touched o b off r c l : memory_same s s' -> others_same s s' touched -> ~ touched o -> views s o b off r c l -> views s' o b off r c l.
Proof. intros M O N [P Q]. split; [eapply points_kept; eauto|eapply memory_at_same; eauto]. Qed.

Lemma get_dim_run (s : mstate) o d : nth_error (dims s) o = Some d -> get_dim o s = NOk d s.
Proof. intros H. unfold get_dim. now rewrite H. Qed.
Lemma lift_get (s : mstate) o v : nth_error (objs (heap s)) o = Some (Some v) -> lift (get_obj o) s = NOk v s.
Proof. intros H. rewrite (lift_ok _ s v (heap s)) by (apply get_obj_ok; auto). now rewrite mstate_eta. Qed.
Lemma lift_set (s : mstate) o v : o < length (objs (heap s)) -> exists s', lift (set_obj o v) s = NOk tt s' /\ memory_same s s' /\ dims s' = dims s /\
  length (objs (heap s')) = length (objs (heap s)) /\ forall o', nth_error (objs (heap s')) o' = if Nat.eq_dec o' o then Some v else nth_error (objs (heap s)) o'.
Proof.
  intros H. destruct (set_obj_ok (heap s) o v H) as (h & E & A & B & C & D). exists (MSt h (dims s)). split; [apply lift_ok; auto|]. split; [split; auto|]. auto.
Qed.
Lemma set_dim_run (s : mstate) o r c d : nth_error (dims s) o = Some d -> exists s', set_dim o r c s = NOk tt s' /\ heap s' = heap s /\
  length (dims s') = length (dims s) /\ forall o', nth_error (dims s') o' = if Nat.eq_dec o' o then Some (Dim r c (dlay d)) else nth_error (dims s) o'.
Proof.
  intros H. unfold set_dim. rewrite H. destruct (list_put_Some (dims s) o (Dim r c (dlay d))) as [ds E]; [apply nth_error_Some; congruence|].
  rewrite E. eexists. split; [reflexivity|]. split; auto. split; [eapply list_put_length; eauto|]. intros o'. apply (nth_error_list_put _ _ _ _ o' E).
Qed.
Lemma object_run (s : mstate) l p r c : sized s -> exists s', xm_object l p r c s = NOk (length (objs (heap s))) s' /\ sized s' /\
  points s' (length (objs (heap s))) p r c l /\ memory_same s s' /\ others_same s s' (fun _ => False).
Proof.
  intros Z. unfold sized in *. eexists. split; [reflexivity|]. cbn [heap dims objs blocks sched]. split; [|split; [|split]].
  - rewrite !app_length. cbn. lia.
  - split; cbn [heap dims objs].
    + eexists. rewrite nth_error_app2, Nat.sub_diag by lia. split; reflexivity.
    + rewrite <- Z, nth_error_app2, Nat.sub_diag by lia. reflexivity.
  - split; reflexivity.
  - intros o L _. cbn [heap dims objs]. split; apply nth_error_app1; lia.
Qed.
End Views.

(** ** Construction *)
(** matrix(data, rows, cols): the elements are those at data *)
Theorem external_matrix_construct : forall (T : Type) (s : mstate T) l b off r c, sized s -> memory_at s b off (r * c) ->
  exists s', xm_new l (Some (b, off)) (Z.of_nat r) (Z.of_nat c) s = NOk (length (objs (heap s))) s' /\ sized s' /\
    views s' (length (objs (heap s))) b off r c l /\ memory_same s s' /\ others_same s s' (fun _ => False).
Proof.
  intros T s l b off r c Z M. destruct (object_run s l (Some (b, off)) r c Z) as (s' & E & Z' & P & K & O). exists s'. split.
  - unfold xm_new, requireN. rewrite (bindN_ok _ _ s tt s) by (destruct (Z.leb_spec 0 (Z.of_nat r)); [reflexivity|lia]).
    rewrite (bindN_ok _ _ s tt s) by (destruct (Z.leb_spec 0 (Z.of_nat c)); [reflexivity|lia]). now rewrite !Nat2Z.id.
  - split; auto. split; auto. split; auto. eapply memory_at_same; eauto.
Qed.
Theorem external_matrix_negative_size : forall (T : Type) (s : mstate T) l p rows cols, (rows < 0 \/ cols < 0)%Z ->
  xm_new l p rows cols s = NThrow EInvalidArgument s.
Proof.
  intros T s l p rows cols H. unfold xm_new, bindN, requireN. destruct (Z.leb_spec 0 rows); auto. destruct (Z.leb_spec 0 cols); auto. lia.
Qed.
(** matrix(): no elements *)
Theorem external_matrix_default : forall (T : Type) (s : mstate T) l, sized s ->
  exists s', xm_default l s = NOk (length (objs (heap s))) s' /\ sized s' /\ points s' (length (objs (heap s))) None 0 0 l /\
    memory_same s s' /\ others_same s s' (fun _ => False).
Proof. intros T s l Z. destruct (object_run s l None 0 0 Z) as (s' & E & H). exists s'. auto. Qed.

(** ** Element access *)
Lemma get_run {T} (s : mstate T) o p r c l i j : points s o p r c l ->
  h_get o i j s = match p with
                  | None => NUB UBMem
                  | Some (b, off) => match cellat (heap s) b (at_cell off r c l i j) with
                                     | Some (Some x) => NOk x s | Some None => NUB UBIndet | None => NUB UBMem end
                  end.
Proof.
  intros [(v & A & B) D]. unfold h_get. rewrite (bindN_ok _ _ s _ s) by (apply get_dim_run; eauto). cbn [dlay drows dcols].
  unfold lift, obj_get. rewrite (bindM_ok _ _ _ v (heap s)) by (apply get_obj_ok; auto). rewrite B. destruct p as [[b off]|]; [|reflexivity].
  rewrite at_cell_index. unfold HeapModel.rd. destruct (rd_cell_inv (heap s) b (off + index l r c i j)) as [(x & E1 & E2)|[E1 E2]].
  - rewrite (bindM_ok _ _ _ _ _ E2), E1. destruct x; cbn; rewrite ?mstate_eta; auto.
  - unfold bindM. rewrite E2, E1. auto.
Qed.
(** m(i, j) is the memory cell of that element. *)
Theorem external_matrix_get : forall (T : Type) (s : mstate T) o b off r c l i j, views s o b off r c l -> i < r -> j < c ->
  h_get o i j s = match cellat (heap s) b (at_cell off r c l i j) with Some (Some x) => NOk x s | _ => NUB UBIndet end.
Proof.
  intros T s o b off r c l i j [P M] Hi Hj. rewrite (get_run _ _ _ _ _ _ _ _ P). destruct (M (index l r c i j)) as [x Hx]; [apply index_bound; auto|].
  rewrite at_cell_index, Hx. auto.
Qed.
(** matrix(array): element (i, j) is array[i][j] with row-major layout and array[j][i]
    with column-major layout. *)
Theorem external_matrix_array : forall (T : Type) (s : mstate T) l b off n1 n2, sized s -> memory_at s b off (n1 * n2) ->
  exists s', xm_array l (b, off) n1 n2 s = NOk (length (objs (heap s))) s' /\ sized s' /\ memory_same s s' /\ others_same s s' (fun _ => False) /\
    let o := length (objs (heap s)) in
    match l with
    | row_major => views s' o b off n1 n2 l /\ forall i j x, i < n1 -> j < n2 -> cellat (heap s) b (off + (i * n2 + j)) = Some (Some x) -> h_get o i j s' = NOk x s'
    | col_major => views s' o b off n2 n1 l /\ forall i j x, i < n1 -> j < n2 -> cellat (heap s) b (off + (i * n2 + j)) = Some (Some x) -> h_get o j i s' = NOk x s'
    end.
Proof.
  intros T s l b off n1 n2 Z M. destruct l; cbn [xm_array].
  - destruct (object_run s row_major (Some (b, off)) n1 n2 Z) as (s' & E & Z' & P & K & O). exists s'. split; auto. split; auto. split; auto. split; auto. split.
    + split; auto. eapply memory_at_same; eauto.
    + intros i j x Hi Hj H. rewrite (get_run _ _ _ _ _ _ _ _ P). cbn [at_cell]. now rewrite (cellat_blocks s s'), H by auto.
  - destruct (object_run s col_major (Some (b, off)) n2 n1 Z) as (s' & E & Z' & P & K & O). exists s'. split; auto. split; auto. split; auto. split; auto. split.
    + split; auto. eapply memory_at_same; eauto. now rewrite Nat.mul_comm.
    + intros i j x Hi Hj H. rewrite (get_run _ _ _ _ _ _ _ _ P). cbn [at_cell]. now rewrite (cellat_blocks s s'), H by auto.
Qed.

Lemma put_run {T} (s : mstate T) o b off r c l i j x : views s o b off r c l -> i < r -> j < c ->
  exists s', h_put o i j x s = NOk tt s' /\ steady s s' /\
    forall b' k, cellat (heap s') b' k = if Nat.eq_dec b' b then if Nat.eq_dec k (off + index l r c i j) then Some (Some x) else cellat (heap s) b' k else cellat (heap s) b' k.
Proof.
  intros [[(v & A & B) D] M] Hi Hj. unfold h_put. rewrite (bindN_ok _ _ s _ s) by (apply get_dim_run; eauto). cbn [dlay drows dcols].
  destruct (M (index l r c i j)) as [y Hy]; [apply index_bound; auto|]. destruct (wr_cell_ok (heap s) b (off + index l r c i j) (Some x) y Hy) as (h & E & Sh & C).
  unfold lift, obj_put. rewrite (bindM_ok _ _ _ v (heap s)) by (apply get_obj_ok; auto). rewrite B, E. exists (MSt h (dims s)). split; auto. split; [split; auto|]. exact C.
Qed.
Lemma steady_points {T} (s s' : mstate T) o p r c l : steady s s' -> points s o p r c l -> points s' o p r c l.
Proof. intros [(A & _) B] [(v & X & Y) Z]. split; [exists v; rewrite A; auto|congruence]. Qed.
Lemma steady_memory {T} (s s' : mstate T) b off n : steady s s' -> memory_at s b off n -> memory_at s' b off n.
Proof. intros [(_ & _ & _ & S) _] H k Hk. apply cellat_bsize. rewrite S. apply cellat_bsize. auto. Qed.
Lemma steady_views {T} (s s' : mstate T) o b off r c l : steady s s' -> views s o b off r c l -> views s' o b off r c l.
Proof. intros S [A B]. split; [eapply steady_points|eapply steady_memory]; eauto. Qed.

(** m(i, j) = x is seen by every matrix, and by every of its elements, at that address, and
    by nothing else. *)
Theorem external_matrix_put : forall (T : Type) (s : mstate T) o b off r c l i j x, views s o b off r c l -> i < r -> j < c ->
  exists s', h_put o i j x s = NOk tt s' /\
    objs (heap s') = objs (heap s) /\ dims s' = dims s /\
    (forall b' k, (b', k) <> (b, at_cell off r c l i j) -> cellat (heap s') b' k = cellat (heap s) b' k) /\
    (forall o2 b2 off2 r2 c2 l2, views s o2 b2 off2 r2 c2 l2 -> views s' o2 b2 off2 r2 c2 l2 /\
       forall i2 j2, i2 < r2 -> j2 < c2 ->
         ((b2, at_cell off2 r2 c2 l2 i2 j2) = (b, at_cell off r c l i j) -> h_get o2 i2 j2 s' = NOk x s') /\
         ((b2, at_cell off2 r2 c2 l2 i2 j2) <> (b, at_cell off r c l i j) -> h_get o2 i2 j2 s' = result_in s' (h_get o2 i2 j2 s))).
Proof.
  intros T s o b off r c l i j x V Hi Hj. destruct (put_run s o b off r c l i j x V Hi Hj) as (s' & E & S & C). exists s'. split; auto.
  split; [apply S|]. split; [apply S|]. rewrite at_cell_index. assert (F : forall b' k, (b', k) <> (b, off + index l r c i j) -> cellat (heap s') b' k = cellat (heap s) b' k).
  { intros b' k N. rewrite C. destruct (Nat.eq_dec b' b); auto. destruct (Nat.eq_dec k (off + index l r c i j)); auto. subst. congruence. }
  split; auto. intros o2 b2 off2 r2 c2 l2 V2. assert (V2' := steady_views s s' _ _ _ _ _ _ S V2). split; auto. intros i2 j2 H1 H2.
  rewrite (external_matrix_get _ s' _ _ _ _ _ _ _ _ V2'), (external_matrix_get _ s _ _ _ _ _ _ _ _ V2) by auto. split; intros Q.
  - injection Q as -> Q. rewrite Q, C. destruct (Nat.eq_dec b b); [|congruence]. destruct (Nat.eq_dec _ (off + index l r c i j)); [reflexivity|congruence].
  - rewrite F by auto. destruct (cellat (heap s) b2 _) as [[y|]|]; reflexivity.
Qed.
(** The same memory viewed with the other layout and the sizes exchanged is the transpose,
    at all times. *)
Theorem external_matrix_transposed_view : forall (T : Type) (s : mstate T) o1 o2 b off r c i j,
  views s o1 b off r c row_major -> views s o2 b off c r col_major -> i < r -> j < c -> h_get o1 i j s = h_get o2 j i s.
Proof. intros. rewrite (external_matrix_get _ s o1 b off r c row_major), (external_matrix_get _ s o2 b off c r col_major) by auto. reflexivity. Qed.

(** ** Resize, reset *)
(** Resizing never touches memory: it re-reads the same elements in storage order. *)
Theorem external_matrix_resize : forall (T : Type) (s : mstate T) o b off r c l r' c', views s o b off r c l -> r' * c' = r * c ->
  exists s', xm_resize o (Z.of_nat r') (Z.of_nat c') s = NOk tt s' /\ views s' o b off r' c' l /\ memory_same s s' /\ others_same s s' (fun o' => o' = o) /\
    forall i j i' j', i < r -> j < c -> i' < r' -> j' < c' -> at_cell off r c l i j = at_cell off r' c' l i' j' -> h_get o i' j' s' = result_in s' (h_get o i j s).
Proof.
  intros T s o b off r c l r' c' [P M] E. destruct (set_dim_run s o r' c' _ (proj2 P)) as (s' & E1 & H & L & D).
  assert (K : memory_same s s') by (split; now rewrite H).
  assert (V : views s' o b off r' c' l).
  { split; [|rewrite E; eapply memory_at_same; eauto]. destruct P as [(v & A & B) X]. split; [exists v; rewrite H; auto|].
    rewrite D. destruct (Nat.eq_dec o o); [reflexivity|congruence]. }
  exists s'. split.
  - unfold xm_resize, requireN. rewrite (bindN_ok _ _ s tt s) by (destruct (Z.leb_spec 0 (Z.of_nat r')); [reflexivity|lia]).
    rewrite (bindN_ok _ _ s tt s) by (destruct (Z.leb_spec 0 (Z.of_nat c')); [reflexivity|lia]). rewrite !Nat2Z.id.
    rewrite (bindN_ok _ _ s _ s) by (apply get_dim_run, P). cbn [drows dcols]. rewrite (bindN_ok _ _ s tt s); auto.
    rewrite E, Nat.eqb_refl. auto.
  - split; auto. split; auto. split.
    + intros o' Lo N. rewrite H, D. destruct (Nat.eq_dec o' o); [congruence|auto].
    + intros i j i' j' Hi Hj Hi' Hj' Q. rewrite (external_matrix_get _ s' o b off r' c' l), (external_matrix_get _ s o b off r c l) by (auto; split; auto).
      rewrite <- Q, (cellat_blocks s s') by auto. destruct (cellat (heap s) b _) as [[x|]|]; reflexivity.
Qed.
Theorem external_matrix_resize_wrong : forall (T : Type) (s : mstate T) o p r c l,  points s o p r c l ->
  (forall r' c', r' * c' <> r * c -> xm_resize o (Z.of_nat r') (Z.of_nat c') s = NThrow EMatrixSize s) /\
  (forall rows cols, (rows < 0 \/ cols < 0)%Z -> xm_resize o rows cols s = NThrow EInvalidArgument s).
Proof.
  intros T s o p r c l P. split.
  - intros r' c' N. unfold xm_resize, requireN. rewrite (bindN_ok _ _ s tt s) by (destruct (Z.leb_spec 0 (Z.of_nat r')); [reflexivity|lia]).
    rewrite (bindN_ok _ _ s tt s) by (destruct (Z.leb_spec 0 (Z.of_nat c')); [reflexivity|lia]). rewrite !Nat2Z.id.
    rewrite (bindN_ok _ _ s _ s) by (apply get_dim_run, P). cbn [drows dcols]. apply bindN_throw.
    destruct (Nat.eqb_spec (r * c) (r' * c')); [congruence|reflexivity].
  - intros rows cols H. unfold xm_resize, bindN, requireN. destruct (Z.leb_spec 0 rows); auto. destruct (Z.leb_spec 0 cols); auto. lia.
Qed.
Theorem external_matrix_reset : forall (T : Type) (s : mstate T) o p r c l, points s o p r c l ->
  exists s', xm_reset o s = NOk tt s' /\ points s' o None 0 0 l /\ memory_same s s' /\ others_same s s' (fun o' => o' = o).
Proof.
  intros T s o p r c l P. assert (L := proj1 (points_lt _ _ _ _ _ _ P)). destruct P as [(v & A & B) D]. unfold xm_reset. rewrite (bindN_ok _ _ _ _ _ (lift_get s o v A)).
  destruct (set_dim_run s o 0 0 _ D) as (s1 & E1 & H1 & L1 & D1). rewrite (bindN_ok _ _ _ _ _ E1).
  destruct (lift_set s1 o (Some (VObj (okind v) None 0))) as (s' & E & M & D2 & _ & O); [rewrite H1; auto|]. exists s'. split; auto. split; [|split].
  - split; [eexists; rewrite O; destruct (Nat.eq_dec o o); [split; reflexivity|congruence]|]. rewrite D2, D1. destruct (Nat.eq_dec o o); [reflexivity|congruence].
  - unfold memory_same in *. now rewrite H1 in M.
  - intros o' Lo N. rewrite O, D2, D1, H1. destruct (Nat.eq_dec o' o); [congruence|auto].
Qed.

(** ** Moves *)
Lemma move_run {T} (s : mstate T) o1 o2 p1 r1 c1 l p2 r2 c2 : points s o1 p1 r1 c1 l -> points s o2 p2 r2 c2 l ->
  exists s', xm_move_assign o1 o2 s = NOk tt s' /\ points s' o2 None 0 0 l /\ (o1 <> o2 -> points s' o1 p2 r2 c2 l) /\
    memory_same s s' /\ others_same s s' (fun o' => o' = o1 \/ o' = o2) /\ (sized s -> sized s').
Proof.
  intros P1 P2. assert (L1 := proj1 (points_lt _ _ _ _ _ _ P1)). assert (L2 := proj1 (points_lt _ _ _ _ _ _ P2)).
  destruct P1 as [(v1 & A1 & B1) D1], P2 as [(v2 & A2 & B2) D2]. unfold xm_move_assign. rewrite (bindN_ok _ _ _ _ _ (lift_get s o2 v2 A2)), (bindN_ok _ _ _ _ _ (lift_get s o1 v1 A1)).
  destruct (lift_set s o1 (Some (VObj (okind v1) (oaddr v2) (olen v2))) L1) as (s1 & E1 & M1 & X1 & Y1 & O1). rewrite (bindN_ok _ _ _ _ _ E1).
  assert (D2' : nth_error (dims s1) o2 = Some (Dim r2 c2 l)) by congruence. rewrite (bindN_ok _ _ _ _ _ (get_dim_run _ _ _ D2')). cbn [drows dcols].
  assert (D1' : nth_error (dims s1) o1 = Some (Dim r1 c1 l)) by congruence. destruct (set_dim_run s1 o1 r2 c2 _ D1') as (s2 & E2 & H2 & Y2 & Z2). rewrite (bindN_ok _ _ _ _ _ E2).
  assert (W : exists w, nth_error (objs (heap s2)) o2 = Some (Some w)).
  { rewrite H2, O1. destruct (Nat.eq_dec o2 o1); eauto. } destruct W as [w W]. rewrite (bindN_ok _ _ _ _ _ (lift_get s2 o2 w W)).
  destruct (lift_set s2 o2 (Some (VObj (okind w) None 0))) as (s3 & E3 & M3 & X3 & Y3 & O3); [rewrite H2, Y1; auto|]. rewrite (bindN_ok _ _ _ _ _ E3).
  assert (D3 : exists d, nth_error (dims s3) o2 = Some d /\ dlay d = l).
  { rewrite X3, Z2. destruct (Nat.eq_dec o2 o1); eauto. } destruct D3 as (d & D3 & Dl). destruct (set_dim_run s3 o2 0 0 _ D3) as (s4 & E4 & H4 & Y4 & Z4).
  exists s4. split; auto. split; [|split; [|split; [|split]]].
  - split; [eexists; rewrite H4, O3; destruct (Nat.eq_dec o2 o2); [split; reflexivity|congruence]|]. rewrite Z4. destruct (Nat.eq_dec o2 o2); congruence.
  - intros N. split.
    + eexists. rewrite H4, O3. destruct (Nat.eq_dec o1 o2); [congruence|]. rewrite H2, O1. destruct (Nat.eq_dec o1 o1); [|congruence]. split; [reflexivity|auto].
    + rewrite Z4. destruct (Nat.eq_dec o1 o2); [congruence|]. rewrite X3, Z2. destruct (Nat.eq_dec o1 o1); [reflexivity|congruence].
  - unfold memory_same in *. rewrite H4. rewrite H2 in M3. destruct M1, M3. split; congruence.
  - intros o' L N. rewrite H4, O3, Z4, X3, Z2, H2, O1. destruct (Nat.eq_dec o' o2), (Nat.eq_dec o' o1); try tauto. rewrite X1. auto.
  - unfold sized. intros Z. rewrite H4, Y4, X3, Y2, Y3, H2, Y1, X1. auto.
Qed.
(** A move hands the view over without copying an element; the source has no elements. *)
Theorem external_matrix_move_assign : forall (T : Type) (s : mstate T) o1 o2 p1 r1 c1 l b off r c, points s o1 p1 r1 c1 l -> views s o2 b off r c l -> o1 <> o2 ->
  exists s', xm_move_assign o1 o2 s = NOk tt s' /\ views s' o1 b off r c l /\ points s' o2 None 0 0 l /\
    memory_same s s' /\ others_same s s' (fun o' => o' = o1 \/ o' = o2).
Proof.
  intros T s o1 o2 p1 r1 c1 l b off r c P1 [P2 M] N. destruct (move_run s o1 o2 _ _ _ _ _ _ _ P1 P2) as (s' & E & A & B & K & O & _). exists s'. split; auto.
  split; auto. split; auto. eapply memory_at_same; eauto.
Qed.
Theorem external_matrix_move_construct : forall (T : Type) (s : mstate T) o l b off r c, sized s -> views s o b off r c l ->
  exists s', xm_move_ctor l o s = NOk (length (objs (heap s))) s' /\ views s' (length (objs (heap s))) b off r c l /\ points s' o None 0 0 l /\
    memory_same s s' /\ others_same s s' (fun o' => o' = o).
Proof.
  intros T s o l b off r c Z V. unfold xm_move_ctor. destruct (object_run s l None 0 0 Z) as (s1 & E & Z1 & P1 & K1 & O1). rewrite (bindN_ok _ _ _ _ _ E).
  assert (L := proj1 (points_lt _ _ _ _ _ _ (proj1 V))).
  assert (V1 : views s1 o b off r c l) by (eapply views_kept; eauto).
  destruct (external_matrix_move_assign _ s1 _ o _ _ _ _ _ _ _ _ P1 V1) as (s' & E' & A & B & K & O); [lia|]. rewrite (bindN_ok _ _ _ _ _ E').
  exists s'. split; [reflexivity|]. split; auto. split; auto. split.
  - destruct K, K1. split; congruence.
  - intros o' Lo N. destruct (O1 o' Lo) as [Q1 Q2]; [tauto|]. assert (Lo' : o' < length (objs (heap s1))).
    { apply nth_error_Some. rewrite Q1. apply nth_error_Some. auto. }
    destruct (O o' Lo') as [Q3 Q4]; [lia|]. split; congruence.
Qed.
(** m = std::move(m) loses the elements. *)
Theorem external_matrix_self_move_empties : forall (T : Type) (s : mstate T) o b off r c l, views s o b off r c l ->
  exists s', xm_move_assign o o s = NOk tt s' /\ points s' o None 0 0 l /\ memory_same s s'.
Proof. intros T s o b off r c l [P _]. destruct (move_run s o o _ _ _ _ _ _ _ P P) as (s' & E & A & B & K & O & _). exists s'. auto. Qed.
(** Moving from a fixed-size external matrix leaves one that has its size but no memory. *)
Theorem external_matrix_fixed_move : forall (T : Type) (s : mstate T) o1 o2 p1 l b off r c, points s o1 p1 r c l -> views s o2 b off r c l -> o1 <> o2 ->
  exists s', xf_move_assign o1 o2 s = NOk tt s' /\ views s' o1 b off r c l /\ points s' o2 None r c l /\ (forall i j, h_get o2 i j s' = NUB UBMem) /\
    memory_same s s' /\ others_same s s' (fun o' => o' = o1 \/ o' = o2).
Proof.
  intros T s o1 o2 p1 l b off r c P1 [P2 M] N. assert (L1 := proj1 (points_lt _ _ _ _ _ _ P1)). assert (L2 := proj1 (points_lt _ _ _ _ _ _ P2)).
  destruct P1 as [(v1 & A1 & B1) D1], P2 as [(v2 & A2 & B2) D2]. unfold xf_move_assign. rewrite (bindN_ok _ _ _ _ _ (lift_get s o2 v2 A2)), (bindN_ok _ _ _ _ _ (lift_get s o1 v1 A1)).
  destruct (lift_set s o1 (Some (VObj (okind v1) (oaddr v2) (olen v1))) L1) as (s1 & E1 & M1 & X1 & Y1 & O1). rewrite (bindN_ok _ _ _ _ _ E1).
  assert (W : nth_error (objs (heap s1)) o2 = Some (Some v2)). { rewrite O1. destruct (Nat.eq_dec o2 o1); [congruence|auto]. }
  rewrite (bindN_ok _ _ _ _ _ (lift_get s1 o2 v2 W)).
  destruct (lift_set s1 o2 (Some (VObj (okind v2) None (olen v2)))) as (s3 & E3 & M3 & X3 & Y3 & O3); [rewrite Y1; auto|]. exists s3. split; auto.
  assert (K : memory_same s s3) by (destruct M1, M3; split; congruence).
  assert (P : points s3 o2 None r c l).
  { split; [eexists; rewrite O3; destruct (Nat.eq_dec o2 o2); [split; reflexivity|congruence]|]. congruence. }
  split; [|split; [|split; [|split]]]; auto.
  - split; [|eapply memory_at_same; eauto]. split; [|congruence]. eexists. rewrite O3. destruct (Nat.eq_dec o1 o2); [congruence|]. rewrite O1.
    destruct (Nat.eq_dec o1 o1); [|congruence]. split; [reflexivity|auto].
  - intros i j. apply (get_run _ _ _ _ _ _ i j P).
  - intros o' L NN. rewrite O3, X3, X1, O1. destruct (Nat.eq_dec o' o2), (Nat.eq_dec o' o1); tauto.
Qed.
Theorem external_matrix_fixed_move_construct : forall (T : Type) (s : mstate T) o l b off r c, sized s -> views s o b off r c l ->
  exists s', xf_move_ctor l r c o s = NOk (length (objs (heap s))) s' /\ views s' (length (objs (heap s))) b off r c l /\ points s' o None r c l /\
    memory_same s s' /\ others_same s s' (fun o' => o' = o).
Proof.
  intros T s o l b off r c Z V. unfold xf_move_ctor. destruct (object_run s l None r c Z) as (s1 & E & Z1 & P1 & K1 & O1). rewrite (bindN_ok _ _ _ _ _ E).
  assert (L := proj1 (points_lt _ _ _ _ _ _ (proj1 V))).
  assert (V1 : views s1 o b off r c l) by (eapply views_kept; eauto).
  destruct (external_matrix_fixed_move _ s1 _ o _ _ _ _ _ _ P1 V1) as (s' & E' & A & B & _ & K & O); [lia|]. rewrite (bindN_ok _ _ _ _ _ E').
  exists s'. split; [reflexivity|]. split; auto. split; auto. split.
  - destruct K, K1. split; congruence.
  - intros o' Lo N. destruct (O1 o' Lo) as [Q1 Q2]; [tauto|]. assert (Lo' : o' < length (objs (heap s1))).
    { apply nth_error_Some. rewrite Q1. apply nth_error_Some. auto. }
    destruct (O o' Lo') as [Q3 Q4]; [lia|]. split; congruence.
Qed.
(** Constructors of fixed-size external matrices; a default-constructed one has no memory. *)
Theorem external_matrix_fixed_construct : forall (T : Type) (s : mstate T) l r c, sized s ->
  (forall b off, memory_at s b off (r * c) -> exists s', xf_new l (Some (b, off)) r c s = NOk (length (objs (heap s))) s' /\
     views s' (length (objs (heap s))) b off r c l /\ memory_same s s' /\ others_same s s' (fun _ => False)) /\
  (exists s', xf_new l None r c s = NOk (length (objs (heap s))) s' /\ (forall i j, h_get (length (objs (heap s))) i j s' = NUB UBMem) /\
     memory_same s s' /\ others_same s s' (fun _ => False)).
Proof.
  intros T s l r c Z. split.
  - intros b off M. destruct (object_run s l (Some (b, off)) r c Z) as (s' & E & Z' & P & K & O). exists s'. split; auto. split; auto. split; auto. eapply memory_at_same; eauto.
  - destruct (object_run s l None r c Z) as (s' & E & Z' & P & K & O). exists s'. split; auto. split; auto. intros i j. apply (get_run _ _ _ _ _ _ i j P).
Qed.

(** ** Assignment *)
Section Assign.
Context {T : Type}.
Notation mstate := (mstate T).

(** The memory of object o' does not meet the n cells from off of block b on. *)
Definition apart (s : mstate) (b off n o' : nat) : Prop :=
  forall b' off' r' c' l', points s o' (Some (b', off')) r' c' l' -> b' <> b \/ off' + r' * c' <= off \/ off + n <= off'.
(** Reading e while these cells are written, one element after the other, is harmless:
    every operand is elsewhere in memory, or is exactly the target's memory in the target's
    shape and layout and not transposed. *)
Definition harmless (s : mstate) (e : hexpr T) (b off r c : nat) (l : layout) : Prop :=
  forall o', In o' (h_objs e) -> apart s b off (r * c) o' \/ (points s o' (Some (b, off)) r c l /\ ~ under_transpose o' e).
(** The result of an assignment: the target's memory holds the r x c elements F, by its
    layout, and everything else is as before. *)
Definition stored (s s' : mstate) (o b off r c : nat) (l : layout) (F : nat -> nat -> T) : Prop :=
  views s' o b off r c l /\ objs (heap s') = objs (heap s) /\ (forall o', o' <> o -> nth_error (dims s') o' = nth_error (dims s) o') /\
  (forall i j, i < r -> j < c -> h_get o i j s' = NOk (F i j) s') /\
  (forall b' k, b' <> b \/ k < off \/ off + r * c <= k -> cellat (heap s') b' k = cellat (heap s) b' k).

Lemma get_element (s : mstate) o i j x : o < length (dims s) -> element s o i j = Some x -> h_get o i j s = NOk x s.
Proof.
  intros L H. destruct (nth_error (dims s) o) as [d|] eqn:D; [|apply nth_error_None in D; lia]. unfold element, lincell in H. rewrite (m_dim_of _ _ _ D) in H.
  destruct (nth_error (objs (heap s)) o) as [[v|]|] eqn:A; try discriminate. destruct (oaddr v) as [[b off]|] eqn:B; try discriminate.
  assert (P : points s o (Some (b, off)) (drows d) (dcols d) (dlay d)) by (split; [exists v; auto|destruct d; auto]).
  rewrite (get_run _ _ _ _ _ _ i j P). rewrite at_cell_index. destruct (cellat (heap s) b _) as [[y|]|]; congruence.
Qed.
Lemma read_stable (s s' : mstate) e : forall r c i j v, h_shape s e = Some (r, c) -> i < r -> j < c -> h_val s e i j = Some v ->
  (forall o', In o' (h_objs e) -> o' < length (dims s')) ->
  (forall o', In o' (h_objs e) ->
     (forall a b, a < drows (m_dim s o') -> b < dcols (m_dim s o') -> element s' o' a b = element s o' a b) \/
     (~ under_transpose o' e /\ element s' o' i j = element s o' i j)) ->
  h_read e i j s' = NOk v s'.
Proof.
  induction e as [o|r0 c0 f|f e1 IH|f e1 IH1 e2 IH2|f e1 IH k|e1 IH]; cbn [h_shape h_val h_objs h_read under_transpose]; intros r c i j v Sh Hi Hj V L A.
  - apply get_element; [apply L; cbn; auto|]. injection Sh as <- <-. destruct (A o) as [Q|[_ Q]]; [cbn; auto| |congruence]. rewrite Q by auto. auto.
  - injection Sh as <- <-. destruct (Nat.ltb_spec i r0), (Nat.ltb_spec j c0); try lia. cbn. injection V as <-. reflexivity.
  - destruct (h_val s e1 i j) as [x|] eqn:E; [|discriminate]. injection V as <-. rewrite (bindN_ok _ _ _ x s') by (eapply IH; eauto). reflexivity.
  - destruct (h_shape s e1) as [[r1 c1]|] eqn:S1; [|discriminate]. destruct (h_shape s e2) as [[r2 c2]|] eqn:S2; [|discriminate].
    destruct (Nat.eqb_spec r1 r2), (Nat.eqb_spec c1 c2); try discriminate. cbn in Sh. injection Sh as <- <-. subst.
    destruct (h_val s e1 i j) as [x|] eqn:E1; [|discriminate]. destruct (h_val s e2 i j) as [y|] eqn:E2; [|discriminate]. injection V as <-.
    rewrite (bindN_ok _ _ _ x s'). 2:{ eapply IH1; eauto; [intros; apply L, in_or_app; auto|]. intros o' H. destruct (A o') as [Q|[Q1 Q2]]; [apply in_or_app; auto|auto|right; tauto]. }
    rewrite (bindN_ok _ _ _ y s'). 2:{ eapply IH2; eauto; [intros; apply L, in_or_app; auto|]. intros o' H. destruct (A o') as [Q|[Q1 Q2]]; [apply in_or_app; auto|auto|right; tauto]. }
    reflexivity.
  - destruct (h_val s e1 i j) as [x|] eqn:E; [|discriminate]. injection V as <-. rewrite (bindN_ok _ _ _ x s') by (eapply IH; eauto). reflexivity.
  - destruct (h_shape s e1) as [[r1 c1]|] eqn:S1; [|discriminate]. injection Sh as <- <-. eapply IH; eauto. intros o' H. destruct (A o' H) as [Q|[Q1 Q2]]; [auto|contradiction].
Qed.
Lemma dims_of_shape (s : mstate) e : forall r c, (forall o', In o' (h_objs e) -> o' < length (dims s)) -> h_shape s e = Some (r, c) -> h_dims e s = NOk (r, c) s /\ h_build e s = NOk tt s.
Proof.
  induction e as [o|r0 c0 f|f e1 IH|f e1 IH1 e2 IH2|f e1 IH k|e1 IH]; cbn [h_shape h_dims h_build h_objs]; intros r c L Sh; auto.
  - destruct (nth_error (dims s) o) as [d|] eqn:D; [|apply nth_error_None in D; specialize (L o (or_introl eq_refl)); lia].
    rewrite !(bindN_ok _ _ _ d s) by (apply get_dim_run; auto). rewrite (m_dim_of _ _ _ D) in Sh. injection Sh as <- <-. split; reflexivity.
  - injection Sh as <- <-. split; reflexivity.
  - destruct (h_shape s e1) as [[r1 c1]|] eqn:S1; [|discriminate]. destruct (h_shape s e2) as [[r2 c2]|] eqn:S2; [|discriminate].
    destruct (IH1 r1 c1) as [A1 A2]; [intros; apply L, in_or_app; auto|auto|]. destruct (IH2 r2 c2) as [B1 B2]; [intros; apply L, in_or_app; auto|auto|].
    rewrite (bindN_ok _ _ _ _ _ A2), (bindN_ok _ _ _ _ _ B2), (bindN_ok _ _ _ _ _ A1), (bindN_ok _ _ _ _ _ B1). cbn [fst snd].
    destruct (Nat.eqb r1 r2 && Nat.eqb c1 c2); [|discriminate]. injection Sh as <- <-. split; auto.
  - destruct (h_shape s e1) as [[r1 c1]|] eqn:S1; [|discriminate]. injection Sh as <- <-. destruct (IH r1 c1) as [A1 A2]; auto. rewrite (bindN_ok _ _ _ _ _ A1). auto.
Qed.

(** a nest of two loops that store at the positions P a b of a window of n cells *)
Lemma store_loop (s0 : mstate) b off w n m (P : nat -> nat -> nat) (V : nat -> nat -> T) (f : nat -> nat -> N T unit) :
  (forall a q, a < n -> q < m -> P a q < w) ->
  (forall a q a' q', a < n -> q < m -> a' < n -> q' < m -> P a q = P a' q' -> a = a' /\ q = q') ->
  (forall a q s, a < n -> q < m -> steady s0 s -> (forall b' k, b' <> b \/ k < off \/ off + w <= k -> cellat (heap s) b' k = cellat (heap s0) b' k) ->
     cellat (heap s) b (off + P a q) = cellat (heap s0) b (off + P a q) ->
     exists s', f a q s = NOk tt s' /\ steady s s' /\
       forall b' k, cellat (heap s') b' k = if Nat.eq_dec b' b then if Nat.eq_dec k (off + P a q) then Some (Some (V a q)) else cellat (heap s) b' k else cellat (heap s) b' k) ->
  exists s', forN n 0 (fun a => forN m 0 (fun q => f a q)) s0 = NOk tt s' /\ steady s0 s' /\
    (forall b' k, b' <> b \/ k < off \/ off + w <= k -> cellat (heap s') b' k = cellat (heap s0) b' k) /\
    (forall a q, a < n -> q < m -> cellat (heap s') b (off + P a q) = Some (Some (V a q))).
Proof.
  intros HB HI Hf.
  set (I := fun (a q : nat) (s : mstate) => steady s0 s /\ (forall b' k, b' <> b \/ k < off \/ off + w <= k -> cellat (heap s) b' k = cellat (heap s0) b' k) /\
    forall a' q', a' < n -> q' < m -> cellat (heap s) b (off + P a' q') =
      if (a' <? a) || ((a' =? a) && (q' <? q)) then Some (Some (V a' q')) else cellat (heap s0) b (off + P a' q')).
  destruct (forN_inv (fun a s => I a 0 s) (fun a => forN m 0 (fun q => f a q)) n 0 s0) as (s' & E & (S & O & C)).
  - split; [apply steady_refl|]. split; auto. intros a' q' _ _. cbn. destruct (a' =? 0); reflexivity.
  - intros a s Ha HIa. destruct (forN_inv (fun q s => I a q s) (fun q => f a q) m 0 s) as (s' & E & (S & O & C)); auto.
    + intros q t Hq (S & O & C). cbn in Ha, Hq.
      assert (Q : cellat (heap t) b (off + P a q) = cellat (heap s0) b (off + P a q)).
      { rewrite C by lia. rewrite Nat.ltb_irrefl, Nat.eqb_refl, Nat.ltb_irrefl. reflexivity. }
      destruct (Hf a q t) as (t' & E & S' & C'); auto; [lia|lia|]. exists t'. split; auto. split; [eapply steady_trans; eauto|]. split.
      * intros b' k H. rewrite C', O by auto. destruct (Nat.eq_dec b' b); auto. destruct (Nat.eq_dec k (off + P a q)); auto.
        assert (P a q < w) by (apply HB; lia). lia.
      * intros a' q' Ha' Hq'. rewrite C', C by auto. destruct (Nat.eq_dec b b); [|congruence]. destruct (Nat.eq_dec (off + P a' q') (off + P a q)) as [X|X].
        -- destruct (HI a' q' a q) as [-> ->]; auto; try lia. rewrite Nat.ltb_irrefl, Nat.eqb_refl. destruct (Nat.ltb_spec q (Datatypes.S q)); [reflexivity|lia].
        -- destruct (Nat.ltb_spec a' a); auto. destruct (Nat.eqb_spec a' a); auto. subst. cbn [orb andb]. destruct (Nat.ltb_spec q' q), (Nat.ltb_spec q' (Datatypes.S q)); auto; try lia.
           assert (q' = q) by lia. congruence.
    + exists s'. split; auto. split; auto. split; auto. intros a' q' Ha' Hq'. rewrite C by auto.
      destruct (Nat.ltb_spec a' a), (Nat.ltb_spec a' (Datatypes.S a)); auto; try lia.
      * destruct (Nat.eqb_spec a' a); [|lia]. cbn [orb andb]. destruct (Nat.ltb_spec q' (0 + m)); [auto|lia].
      * destruct (Nat.eqb_spec a' a), (Nat.eqb_spec a' (Datatypes.S a)); try lia; reflexivity.
  - exists s'. split; auto. split; auto. split; auto. intros a q Ha Hq. rewrite C by auto. destruct (Nat.ltb_spec a (0 + n)); [reflexivity|lia].
Qed.

(** the element loop, in a state where the target already has the shape of e *)
Lemma copy_run (s0 s : mstate) o e b off r c l F : views s o b off r c l ->
  memory_same s0 s -> objs (heap s) = objs (heap s0) -> length (dims s) = length (dims s0) -> (forall o', o' <> o -> nth_error (dims s) o' = nth_error (dims s0) o') ->
  denotes s0 e r c F -> sized s0 -> harmless s0 e b off r c l ->
  (exists d, nth_error (dims s0) o = Some d /\ dlay d = l) -> (exists v, nth_error (objs (heap s0)) o = Some (Some v) /\ oaddr v = Some (b, off)) ->
  (forall d, nth_error (dims s0) o = Some d -> drows d * dcols d = r * c) ->
  exists s', x_copy o e s = NOk tt s' /\ stored s0 s' o b off r c l F.
Proof.
  intros V K Ob Ld D (X & Sh & Val) Z HL [d [D0 Dl]] [v [Hv Ha]] Cnt.
  assert (Step : forall i j t, i < r -> j < c -> steady s t -> (forall b' k, b' <> b \/ k < off \/ off + r * c <= k -> cellat (heap t) b' k = cellat (heap s) b' k) ->
     cellat (heap t) b (off + index l r c i j) = cellat (heap s) b (off + index l r c i j) ->
     exists t', bindN (h_read e i j) (fun x => h_put o i j x) t = NOk tt t' /\ steady t t' /\
       forall b' k, cellat (heap t') b' k = if Nat.eq_dec b' b then if Nat.eq_dec k (off + index l r c i j) then Some (Some (F i j)) else cellat (heap t) b' k else cellat (heap t) b' k).
  { intros i j t Hi Hj St Out Here. rewrite (bindN_ok _ _ _ (F i j) t).
    - apply put_run; auto. eapply steady_views; eauto.
    - assert (Pos : 0 < r * c) by nia. eapply (read_stable s0 t); eauto.
      + intros o' H. destruct St as [_ ->]. rewrite Ld, Z. destruct (X o' H) as [w W]. apply nth_error_Some. congruence.
      + intros o' H. destruct (X o' H) as [w W]. assert (L' : o' < length (dims s0)) by (rewrite Z; apply nth_error_Some; congruence).
        assert (Dsame : nth_error (dims s) o' = nth_error (dims s0) o').
        { destruct (Nat.eq_dec o' o) as [->|N]; [|apply D; auto]. rewrite (proj2 (proj1 V)). destruct (HL o H) as [Q|[Q _]].
          - exfalso. assert (PP : points s0 o (Some (b, off)) (drows d) (dcols d) (dlay d)) by (split; [exists v; auto|destruct d; auto]).
            specialize (Q _ _ _ _ _ PP). specialize (Cnt d D0). lia.
          - symmetry. apply Q. }
        assert (Dt : m_dim t o' = m_dim s0 o').
        { rewrite (steady_dim s t) by auto. unfold m_dim. destruct (nth_error (dims s0) o') as [d'|] eqn:E.
          - rewrite (nth_error_nth _ _ _ Dsame), (nth_error_nth _ _ _ E). auto.
          - apply nth_error_None in E. lia. }
        assert (Ot : objs (heap t) = objs (heap s0)) by (destruct St as [[-> _] _]; auto).
        destruct (oaddr w) as [[b' off']|] eqn:A.
        2:{ left. intros a q _ _. unfold element, lincell. rewrite Ot, W, A. auto. }
        destruct (nth_error (dims s0) o') as [d'|] eqn:E; [|apply nth_error_None in E; lia].
        assert (PP : points s0 o' (Some (b', off')) (drows d') (dcols d') (dlay d')) by (split; [exists w; auto|destruct d'; auto]).
        destruct (HL o' H) as [Q|[Q1 Q2]].
        * left. intros a q Ha' Hq. specialize (Q _ _ _ _ _ PP). unfold element, lincell. rewrite Dt, Ot, W, A. rewrite (m_dim_of _ _ _ E) in *.
          assert (IB := index_bound (dlay d') _ _ _ _ Ha' Hq). rewrite Out, (cellat_blocks s0 s) by (auto; lia). auto.
        * right. split; auto. unfold element, lincell. rewrite Dt, Ot, W, A. destruct Q1 as [(w' & W1 & W2) W3]. rewrite W in W1. injection W1 as <-. rewrite A in W2. injection W2 as -> ->.
          rewrite (m_dim_of _ _ _ W3). cbn [dlay drows dcols]. rewrite Here, (cellat_blocks s0 s) by auto. auto. }
  assert (Fin : exists s', x_copy o e s = NOk tt s' /\ steady s s' /\ (forall b' k, b' <> b \/ k < off \/ off + r * c <= k -> cellat (heap s') b' k = cellat (heap s) b' k) /\
    forall i j, i < r -> j < c -> cellat (heap s') b (off + index l r c i j) = Some (Some (F i j))).
  { unfold x_copy, h_each. rewrite (bindN_ok _ _ s _ s) by (apply get_dim_run, V). cbn [dlay drows dcols]. destruct l.
    - destruct (store_loop s b off (r * c) r c (fun i j => index row_major r c i j) F (fun i j => bindN (h_read e i j) (fun x => h_put o i j x))) as (s' & E & S & O & C).
      + intros. apply index_bound; auto.
      + intros a q a' q' ? ? ? ? ?. apply (index_inj row_major r c a q a' q'); auto.
      + auto.
      + exists s'. auto.
    - destruct (store_loop s b off (r * c) c r (fun j i => index col_major r c i j) (fun j i => F i j) (fun j i => bindN (h_read e i j) (fun x => h_put o i j x))) as (s' & E & S & O & C).
      + intros. apply index_bound; auto.
      + intros a q a' q' ? ? ? ? ?. destruct (index_inj col_major r c q a q' a'); auto.
      + auto.
      + exists s'. auto. }
  destruct Fin as (s' & E & S & O & C). exists s'. split; auto. assert (V' := steady_views s s' _ _ _ _ _ _ S V). split; auto. split; [destruct S as [[-> _] _]; auto|]. split; [|split].
  - intros o' N. destruct S as [_ ->]. auto.
  - intros i j Hi Hj. rewrite (external_matrix_get _ _ _ _ _ _ _ _ _ _ V') by auto. rewrite at_cell_index, C by auto. auto.
  - intros b' k H. rewrite O, (cellat_blocks s0 s) by auto. auto.
Qed.
End Assign.

(** m = e for a dynamic external matrix m: same number of elements *)
Theorem external_matrix_assign : forall (T : Type) (s : mstate T) o e b off r0 c0 l r c F,
  sized s -> views s o b off r0 c0 l -> denotes s e r c F -> r * c = r0 * c0 -> harmless s e b off r c l ->
  exists s', xm_assign o e s = NOk tt s' /\ stored s s' o b off r c l F.
Proof.
  intros T s o e b off r0 c0 l r c F Z V De Cnt HL. destruct De as (X & Sh & Val).
  assert (Lt : forall o', In o' (h_objs e) -> o' < length (dims s)) by (intros o' H; destruct (X o' H) as [v Hv]; rewrite Z; apply nth_error_Some; congruence).
  destruct (dims_of_shape s e r c Lt Sh) as [A1 A2]. unfold xm_assign. rewrite (bindN_ok _ _ _ _ _ A2), (bindN_ok _ _ _ _ _ A1). cbn [fst snd].
  destruct (external_matrix_resize T s o b off r0 c0 l r c V Cnt) as (s1 & E1 & V1 & K1 & O1 & _). rewrite (bindN_ok _ _ _ _ _ E1).
  assert (Ob : objs (heap s1) = objs (heap s) /\ length (dims s1) = length (dims s) /\ forall o', o' <> o -> nth_error (dims s1) o' = nth_error (dims s) o').
  { destruct V as [[_ Dv] _]. unfold xm_resize, requireN in E1. rewrite (bindN_ok _ _ s tt s) in E1 by (destruct (Z.leb_spec 0 (Z.of_nat r)); [reflexivity|lia]).
    rewrite (bindN_ok _ _ s tt s) in E1 by (destruct (Z.leb_spec 0 (Z.of_nat c)); [reflexivity|lia]). rewrite !Nat2Z.id in E1.
    rewrite (bindN_ok _ _ s _ s) in E1 by (apply get_dim_run; eauto). cbn [drows dcols] in E1. rewrite (bindN_ok _ _ s tt s) in E1 by (rewrite Cnt, Nat.eqb_refl; auto).
    destruct (set_dim_run s o r c _ Dv) as (s2 & E2 & H2 & L2 & D2). rewrite E2 in E1. injection E1 as ->. rewrite H2. split; auto. split; auto. intros o' N. rewrite D2.
    destruct (Nat.eq_dec o' o); [congruence|auto]. }
  destruct Ob as (Ob & Ld & D). destruct V as [[Hv Dv] M]. apply (copy_run s s1); auto; [repeat split; auto|eauto|]. intros d Hd. rewrite Dv in Hd. injection Hd as <-. auto.
Qed.
(** a different number of elements: an exception, and nothing has changed *)
Theorem external_matrix_assign_wrong : forall (T : Type) (s : mstate T) o e p r0 c0 l r c F,
  sized s -> points s o p r0 c0 l -> denotes s e r c F -> r * c <> r0 * c0 -> xm_assign o e s = NThrow EMatrixSize s.
Proof.
  intros T s o e p r0 c0 l r c F Z V (X & Sh & Val) N.
  assert (Lt : forall o', In o' (h_objs e) -> o' < length (dims s)) by (intros o' H; destruct (X o' H) as [v Hv]; rewrite Z; apply nth_error_Some; congruence).
  destruct (dims_of_shape s e r c Lt Sh) as [A1 A2]. unfold xm_assign. rewrite (bindN_ok _ _ _ _ _ A2), (bindN_ok _ _ _ _ _ A1). cbn [fst snd].
  apply bindN_throw. apply (proj1 (external_matrix_resize_wrong T s o p r0 c0 l V)). auto.
Qed.
(** a fixed-size external matrix *)
Theorem external_matrix_fixed_assign : forall (T : Type) (s : mstate T) o e b off l r c F,
  sized s -> views s o b off r c l -> denotes s e r c F -> harmless s e b off r c l ->
  exists s', xf_assign o e s = NOk tt s' /\ stored s s' o b off r c l F.
Proof.
  intros T s o e b off l r c F Z V De HL. destruct De as (X & Sh & Val).
  assert (Lt : forall o', In o' (h_objs e) -> o' < length (dims s)) by (intros o' H; destruct (X o' H) as [v Hv]; rewrite Z; apply nth_error_Some; congruence).
  destruct (dims_of_shape s e r c Lt Sh) as [A1 A2]. unfold xf_assign. rewrite (bindN_ok _ _ _ _ _ A2), (bindN_ok _ _ _ _ _ A1). cbn [fst snd].
  rewrite (bindN_ok _ _ s _ s) by (apply get_dim_run, V). cbn [drows dcols]. rewrite (bindN_ok _ _ s tt s) by (rewrite !Nat.eqb_refl; auto).
  assert (V0 := V). destruct V as [[Hv Dv] M]. apply (copy_run s s); auto; [split; auto|repeat split; auto|eauto|]. intros d Hd. rewrite Dv in Hd. injection Hd as <-. auto.
Qed.
Theorem external_matrix_fixed_assign_wrong : forall (T : Type) (s : mstate T) o e p r0 c0 l r c F,
  sized s -> points s o p r0 c0 l -> denotes s e r c F -> (r, c) <> (r0, c0) -> xf_assign o e s = NThrow EIncompatibleMatrixSize s.
Proof.
  intros T s o e p r0 c0 l r c F Z V (X & Sh & Val) N.
  assert (Lt : forall o', In o' (h_objs e) -> o' < length (dims s)) by (intros o' H; destruct (X o' H) as [v Hv]; rewrite Z; apply nth_error_Some; congruence).
  destruct (dims_of_shape s e r c Lt Sh) as [A1 A2]. unfold xf_assign. rewrite (bindN_ok _ _ _ _ _ A2), (bindN_ok _ _ _ _ _ A1). cbn [fst snd].
  rewrite (bindN_ok _ _ s _ s) by (apply get_dim_run, V). cbn [drows dcols]. apply bindN_throw. unfold requireN.
  destruct (Nat.eqb_spec r0 r), (Nat.eqb_spec c0 c); cbn; auto. congruence.
Qed.
(** m1 = m2 for external matrices copies the elements; m1 stays where it is. *)
Theorem external_matrix_copy_elements : forall (T : Type) (s : mstate T) o1 o2 b1 off1 r1 c1 l1 b2 off2 r c l2 F,
  sized s -> views s o1 b1 off1 r1 c1 l1 -> views s o2 b2 off2 r c l2 -> r * c = r1 * c1 ->
  b1 <> b2 \/ off2 + r * c <= off1 \/ off1 + r * c <= off2 ->
  (forall i j, i < r -> j < c -> h_get o2 i j s = NOk (F i j) s) ->
  exists s', xm_assign o1 (HObj o2) s = NOk tt s' /\ stored s s' o1 b1 off1 r c l1 F /\
    (o1 <> o2 -> views s' o2 b2 off2 r c l2 /\ forall i j, i < r -> j < c -> h_get o2 i j s' = NOk (F i j) s').
Proof.
  intros T s o1 o2 b1 off1 r1 c1 l1 b2 off2 r c l2 F Z V1 V2 Cnt Ap HF.
  assert (De : denotes s (HObj o2) r c F).
  { split; [|split].
    - intros o' [<-|[]]. destruct V2 as [[(v & A & _) _] _]. exists v; auto.
    - cbn. rewrite (points_dim _ _ _ _ _ _ (proj1 V2)). reflexivity.
    - intros i j Hi Hj. specialize (HF i j Hi Hj). rewrite (external_matrix_get _ _ _ _ _ _ _ _ _ _ V2) in HF by auto. cbn. unfold element, lincell.
      rewrite (points_dim _ _ _ _ _ _ (proj1 V2)). cbn [dlay drows dcols]. destruct V2 as [[(v & A & B) _] _]. rewrite A, B. rewrite at_cell_index in HF.
      destruct (cellat (heap s) b2 _) as [[x|]|]; try discriminate. congruence. }
  destruct (external_matrix_assign T s o1 (HObj o2) b1 off1 r1 c1 l1 r c F Z V1 De Cnt) as (s' & E & S).
  { intros o' [<-|[]]. left. intros b' off' r' c' l' [(v & A & B) D]. destruct V2 as [[(v2 & A2 & B2) D2] _]. rewrite A in A2. injection A2 as <-. rewrite B in B2. injection B2 as -> ->.
    rewrite D in D2. injection D2 as -> -> ->. destruct Ap as [Q|Q]; [left; congruence|right; lia]. }
  exists s'. split; auto. split; auto. intros N. destruct S as (_ & Ob & Di & _ & Out).
  assert (Mem : forall i j, i < r -> j < c -> cellat (heap s') b2 (off2 + index l2 r c i j) = cellat (heap s) b2 (off2 + index l2 r c i j)).
  { intros i j Hi Hj. assert (IB := index_bound l2 r c i j Hi Hj). apply Out. destruct Ap as [Q|Q]; [left; congruence|right; lia]. }
  assert (P2 : points s' o2 (Some (b2, off2)) r c l2) by (destruct V2 as [[A D] _]; split; [rewrite Ob; auto|rewrite Di by auto; auto]).
  split; [split; auto|].
  - intros k Hk. destruct V2 as [_ M]. destruct (M k Hk) as [x Hx]. exists x. rewrite Out; auto. destruct Ap as [Q|Q]; [left; congruence|right; lia].
  - intros i j Hi Hj. specialize (HF i j Hi Hj). rewrite (get_run _ _ _ _ _ _ _ _ P2), at_cell_index, Mem by auto.
    rewrite (external_matrix_get _ _ _ _ _ _ _ _ _ _ V2), at_cell_index in HF by auto. destruct (cellat (heap s) b2 _) as [[x|]|]; try discriminate. congruence.
Qed.

(** ** m += e, m -= e, m *= k, m /= k *)
Lemma forN_ext {T} (f g : nat -> N T unit) n : (forall i s, f i s = g i s) -> forall i s, forN n i f s = forN n i g s.
Proof. intros H. induction n as [|n IH]; intros i s; cbn; auto. unfold bindN. rewrite H. destruct (g i s); auto. Qed.
Lemma each_ext {T} (f g : nat -> nat -> N T unit) o : (forall i j s, f i j s = g i j s) -> forall s, h_each o f s = h_each o g s.
Proof.
  intros H s. unfold h_each, bindN. destruct (get_dim o s) as [d s1|e s1|u]; auto. destruct (dlay d); apply forN_ext; intros i t; apply forN_ext; auto.
Qed.
(** m op= e is m = m op e, for operands that m's writes do not disturb. *)
Theorem external_matrix_compound : forall (T : Type) (s : mstate T) op o e b off l r c F,
  sized s -> views s o b off r c l -> denotes s (HBin op (HObj o) e) r c F -> harmless s e b off r c l ->
  exists s', xm_compound op o e s = NOk tt s' /\ stored s s' o b off r c l F.
Proof.
  intros T s op o e b off l r c F Z V De HL. destruct De as (X & Sh & Val).
  assert (Lt : forall o', In o' (h_objs (HBin op (HObj o) e)) -> o' < length (dims s)) by (intros o' H; destruct (X o' H) as [v Hv]; rewrite Z; apply nth_error_Some; congruence).
  assert (She : h_shape s e = Some (r, c)).
  { cbn in Sh. destruct (h_shape s e) as [[r2 c2]|]; [|discriminate]. destruct (Nat.eqb_spec (drows (m_dim s o)) r2), (Nat.eqb_spec (dcols (m_dim s o)) c2); cbn in Sh; try discriminate. congruence. }
  destruct (dims_of_shape s e r c (fun o' H => Lt o' (in_cons _ _ _ H)) She) as [A1 A2]. unfold xm_compound. rewrite (bindN_ok _ _ _ _ _ A2), (bindN_ok _ _ _ _ _ A1). cbn [fst snd].
  destruct (external_matrix_assign T s o (HBin op (HObj o) e) b off r c l r c F Z V (conj X (conj Sh Val)) eq_refl) as (s' & E & S).
  { assert (PO : ~ under_transpose o e \/ 0 = r * c).
    { destruct (Nat.eq_dec (r * c) 0); [right; auto|left]. intros U. assert (I : In o (h_objs e)).
      { clear -U. induction e; cbn in *; try tauto; apply in_or_app; tauto. }
      destruct (HL o I) as [Q|[_ Q]]; [|tauto]. specialize (Q _ _ _ _ _ (proj1 V)). lia. }
    intros o' H. cbn in H. destruct H as [<-|H].
    - destruct PO as [Q|Q]; [right; split; [apply V|cbn; tauto]|]. left. intros b' off' r' c' l' P. destruct V as [P' _]. destruct P as [(v & A & B) D], P' as [(v2 & A' & B') D'].
      rewrite A in A'. injection A' as <-. rewrite B in B'. injection B' as -> ->. rewrite D in D'. injection D' as -> -> ->. lia.
    - destruct (HL o' H) as [Q|[Q1 Q2]]; auto. right. split; auto. cbn. tauto. }
  exists s'. split; auto. rewrite <- E. destruct (dims_of_shape s _ r c Lt Sh) as [B1 B2]. unfold xm_assign. rewrite (bindN_ok _ _ _ _ _ B2), (bindN_ok _ _ _ _ _ B1). cbn [fst snd].
  unfold bindN at 1. unfold bindN at 3. destruct (xm_resize o (Z.of_nat r) (Z.of_nat c) s) as [[] s1|x s1|u]; auto. unfold x_copy. apply each_ext. intros i j t. cbn [h_read]. unfold bindN, retN.
  destruct (h_get o i j t) as [x t1|x t1|u]; auto. destruct (h_read e i j t1); auto.
Qed.
(** m *= k, m /= k apply the operation to every element and touch nothing else. *)
Theorem external_matrix_scale : forall (T : Type) (s : mstate T) op o k b off l r c F,
  sized s -> views s o b off r c l -> (forall i j, i < r -> j < c -> h_get o i j s = NOk (F i j) s) ->
  exists s', xm_scale op o k s = NOk tt s' /\ stored s s' o b off r c l (fun i j => op (F i j) k).
Proof.
  intros T s op o k b off l r c F Z V HF. assert (D := points_dim _ _ _ _ _ _ (proj1 V)). assert (Lo := proj1 (points_lt _ _ _ _ _ _ (proj1 V))).
  assert (De : denotes s (HScal op (HObj o) k) r c (fun i j => op (F i j) k)).
  { split; [|split].
    - intros o' [<-|[]]. destruct V as [[(v & A & _) _] _]. exists v; auto.
    - cbn. rewrite D. reflexivity.
    - intros i j Hi Hj. specialize (HF i j Hi Hj). rewrite (external_matrix_get _ _ _ _ _ _ _ _ _ _ V) in HF by auto. cbn. unfold element, lincell.
      rewrite D. cbn [dlay drows dcols]. destruct V as [[(v & A & B) _] _]. rewrite A, B. rewrite at_cell_index in HF.
      destruct (cellat (heap s) b _) as [[x|]|]; try discriminate. injection HF as ->. reflexivity. }
  destruct (external_matrix_fixed_assign T s o (HScal op (HObj o) k) b off l r c _ Z V De) as (s' & E & S).
  { intros o' [<-|[]]. right. split; [apply V|cbn; tauto]. }
  exists s'. split; auto. rewrite <- E. unfold xf_assign. destruct (dims_of_shape s (HScal op (HObj o) k) r c) as [B1 B2]; [intros o' [<-|[]]; rewrite Z; auto|apply De|].
  rewrite (bindN_ok _ _ _ _ _ B2), (bindN_ok _ _ _ _ _ B1). cbn [fst snd]. rewrite (bindN_ok _ _ s _ s) by (apply get_dim_run, V). cbn [drows dcols]. rewrite (bindN_ok _ _ s tt s) by (rewrite !Nat.eqb_refl; auto).
  unfold xm_scale, x_copy. apply each_ext. intros i j t. cbn [h_read]. unfold bindN, retN. destruct (h_get o i j t); auto.
Qed.

(** the state after a call *)
Definition after {T A} (y : nres T A) (s : mstate T) : mstate T := match y with NOk _ s' => s' | NThrow _ s' => s' | NUB _ => s end.

(** ** What does not hold *)
(** Adding a matrix of another shape with as many elements is not rejected: it reshapes. *)
Theorem external_matrix_compound_shape_refuted : exists (s s' : mstate Z) e r c F, denotes s e r c F /\ (r, c) <> (2, 3) /\ views s 0 0 0 2 3 row_major /\
  xm_compound Z.add 0 e s = NOk tt s' /\ nth_error (dims s') 0 = Some (Dim r c row_major).
Proof.
  set (s := MSt (St [Live [Some 1; Some 2; Some 3; Some 4; Some 5; Some 6]%Z] [Some (VObj KExternal (Some (0, 0)) 6)] []) [Dim 2 3 row_major]).
  exists s, (after (xm_compound Z.add 0 (HTmp 3 2 (fun _ _ => 1%Z)) s) s), (HTmp 3 2 (fun _ _ => 1%Z)), 3, 2, (fun _ _ => 1%Z).
  split; [|split; [discriminate|split; [|split; vm_compute; reflexivity]]].
  - split; [intros o []|]. split; reflexivity.
  - split; [split; [eexists; split; reflexivity|reflexivity]|]. intros k Hk. do 6 (destruct k as [|k]; [eexists; reflexivity|]). lia.
Qed.
(** Copying between overlapping views copies elements that are already overwritten. *)
Theorem external_matrix_overlap_refuted : exists (s s' : mstate Z) o1 o2 x,
  h_get o2 0 1 s = NOk x s /\ xm_assign o1 (HObj o2) s = NOk tt s' /\ h_get o1 0 1 s' <> NOk x s'.
Proof.
  set (s := MSt (St [Live [Some 1; Some 2; Some 3]%Z] [Some (VObj KExternal (Some (0, 1)) 2); Some (VObj KExternal (Some (0, 0)) 2)] []) [Dim 1 2 row_major; Dim 1 2 row_major]).
  exists s, (after (xm_assign 0 (HObj 1) s) s), 0, 1, 2%Z. split; [vm_compute; reflexivity|]. split; [vm_compute; reflexivity|]. vm_compute. discriminate.
Qed.
(** m = transpose(m): neither for a square matrix nor for another one. *)
Theorem external_matrix_transpose_self_refuted :
  (exists (s s' : mstate Z) x, views s 0 0 0 2 2 row_major /\ h_get 0 0 1 s = NOk x s /\ xm_assign 0 (HTrans (HObj 0)) s = NOk tt s' /\ h_get 0 1 0 s' <> NOk x s') /\
  (exists (s s' : mstate Z) x, views s 0 0 0 2 3 row_major /\ h_get 0 0 1 s = NOk x s /\ xm_assign 0 (HTrans (HObj 0)) s = NOk tt s' /\ h_get 0 1 0 s' <> NOk x s').
Proof.
  split.
  - set (s := MSt (St [Live [Some 1; Some 2; Some 3; Some 4]%Z] [Some (VObj KExternal (Some (0, 0)) 4)] []) [Dim 2 2 row_major]).
    exists s, (after (xm_assign 0 (HTrans (HObj 0)) s) s), 2%Z. split; [|split; [vm_compute; reflexivity|split; [vm_compute; reflexivity|vm_compute; discriminate]]].
    split; [split; [eexists; split; reflexivity|reflexivity]|]. intros k Hk. do 4 (destruct k as [|k]; [eexists; reflexivity|]). lia.
  - set (s := MSt (St [Live [Some 1; Some 2; Some 3; Some 4; Some 5; Some 6]%Z] [Some (VObj KExternal (Some (0, 0)) 6)] []) [Dim 2 3 row_major]).
    exists s, (after (xm_assign 0 (HTrans (HObj 0)) s) s), 2%Z. split; [|split; [vm_compute; reflexivity|split; [vm_compute; reflexivity|vm_compute; discriminate]]].
    split; [split; [eexists; split; reflexivity|reflexivity]|]. intros k Hk. do 6 (destruct k as [|k]; [eexists; reflexivity|]). lia.
Qed.

(** ** Concrete cases *)
Definition demo : mstate Z := MSt (St [Live [Some 1; Some 2; Some 3; Some 4; Some 5; Some 6; Some 7; Some 8; Some 9; Some 10; Some 11; Some 12]%Z]
  [Some (VObj KExternal (Some (0, 0)) 6); Some (VObj KExternal (Some (0, 6)) 6)] []) [Dim 2 3 row_major; Dim 3 2 col_major].
Example demo_views : sized demo /\ views demo 0 0 0 2 3 row_major /\ views demo 1 0 6 3 2 col_major.
Proof.
  split; [reflexivity|]. split; (split; [split; [eexists; split; reflexivity|reflexivity]|]); intros k Hk; do 6 (destruct k as [|k]; [eexists; reflexivity|]); lia.
Qed.
(** m0 = 2*m0 + transpose(m1): the operands are the target's own memory and memory apart *)
Definition demo_expr : hexpr Z := HBin Z.add (HScal Z.mul (HObj 0) 2%Z) (HTrans (HObj 1)).
Example demo_denotes : denotes demo demo_expr 2 3 (fun i j => (2 * (Z.of_nat (i * 3 + j) + 1) + (Z.of_nat (i * 3 + j) + 7))%Z) /\ harmless demo demo_expr 0 0 2 3 row_major.
Proof.
  split.
  - split; [|split; [reflexivity|]].
    + intros o' [<-|[<-|[]]]; eexists; reflexivity.
    + intros i j Hi Hj. destruct i as [|[|i]]; [| |lia]; destruct j as [|[|[|j]]]; try lia; reflexivity.
  - intros o' [<-|[<-|[]]].
    + right. split; [split; [eexists; split; reflexivity|reflexivity]|]. cbn. intros [[]|[H|[]]]. discriminate.
    + left. intros b' off' r' c' l' [(v & A & B) D]. cbn in A, D. injection A as <-. injection D as <- <- <-. injection B as <- <-. right; right. cbn. lia.
Qed.
Example demo_run : exists s', xm_assign 0 demo_expr demo = NOk tt s' /\ h_get 0 1 2 s' = NOk 24%Z s' /\ h_get 1 2 1 s' = NOk 12%Z s'.
Proof. exists (after (xm_assign 0 demo_expr demo) demo). vm_compute. repeat split. Qed.
Example demo_resize : exists s', xm_resize 0 3 2 demo = NOk tt s' /\ h_get 0 1 0 s' = NOk 3%Z s'.
Proof. exists (after (xm_resize 0 3 2 demo) demo). vm_compute. repeat split. Qed.
Example demo_transposed : exists s', xm_array col_major (0, 0) 2 3 demo = NOk 2 s' /\ h_get 2 2 0 s' = NOk 3%Z s'.
Proof. exists (after (xm_array col_major (0, 0) 2 3 demo) demo). vm_compute. repeat split. Qed.
Example demo_wrong : xm_resize 0 2 2 demo = NThrow EMatrixSize demo /\ xm_assign 0 (HTmp 2 2 (fun _ _ => 0%Z)) demo = NThrow EMatrixSize demo /\
  xf_assign 0 (HObj 1) demo = NThrow EIncompatibleMatrixSize demo /\ xm_new row_major None (-1) 2 demo = NThrow EInvalidArgument demo.
Proof. vm_compute. repeat split. Qed.
Example demo_move : exists s', xm_move_ctor row_major 0 demo = NOk 2 s' /\ h_get 2 1 2 s' = NOk 6%Z s' /\ nth_error (dims s') 0 = Some (Dim 0 0 row_major).
Proof. exists (after (xm_move_ctor row_major 0 demo) demo). vm_compute. repeat split. Qed.
Print Assumptions external_matrix_construct.
Print Assumptions external_matrix_negative_size.
Print Assumptions external_matrix_default.
Print Assumptions external_matrix_get.
Print Assumptions external_matrix_array.
Print Assumptions external_matrix_put.
Print Assumptions external_matrix_transposed_view.
Print Assumptions external_matrix_resize.
Print Assumptions external_matrix_resize_wrong.
Print Assumptions external_matrix_reset.
Print Assumptions external_matrix_move_assign.
Print Assumptions external_matrix_move_construct.
Print Assumptions external_matrix_self_move_empties.
Print Assumptions external_matrix_fixed_move.
Print Assumptions external_matrix_fixed_move_construct.
Print Assumptions external_matrix_fixed_construct.
Print Assumptions external_matrix_assign.
Print Assumptions external_matrix_assign_wrong.
Print Assumptions external_matrix_fixed_assign.
Print Assumptions external_matrix_fixed_assign_wrong.
Print Assumptions external_matrix_copy_elements.
Print Assumptions external_matrix_compound.
Print Assumptions external_matrix_scale.
Print Assumptions external_matrix_compound_shape_refuted.
Print Assumptions external_matrix_overlap_refuted.
Print Assumptions external_matrix_transpose_self_refuted.
