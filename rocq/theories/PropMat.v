(** Properties of matrices: C02 (transpose), C03 (matrices), C04, C05, C06, C07
    (matrices), C44, C45.

    [is_mat m r c F]: m is r x c and element (i, j) is F i j.  [x_val]: value of an
    expression at (i, j).  [same_type]: basis, layout and storage kind unchanged. *)
From Coq Require Import List ZArith Bool Arith Lia Ring_theory.
From Verif Require Import Base BaseFacts ZInst MatModel MatSpec MatProofs MatOps.
Import ListNotations.

(** Example matrices. *)
Definition of_rows (b : basis) (l : layout) (k : mkind) (rows : list (list Z)) : fmat Z :=
  FM (length rows) (length (hd [] rows)) b l k
     (fun i j => match nth_error rows i with Some r => nth_error r j | None => None end).
Definition to_rows (m : fmat Z) : list (list (option Z)) :=
  map (fun i => map (fun j => fe m i j) (seq 0 (fc m))) (seq 0 (fr m)).
Definition out_rows (o : out (fmat Z)) : option (list (list (option Z))) :=
  match o with Ok m => Some (to_rows m) | _ => None end.
Definition els (rows : list (list Z)) (i j : nat) : Z := nth j (nth i rows []) 0%Z.
Definition ex23 b l k := of_rows b l k [[1; 2; 3]; [4; 5; 6]]%Z.
Definition ex22 b l k := of_rows b l k [[1; 2]; [3; 4]]%Z.

Ltac fin2 i j := destruct i as [|[|[|?]]]; try lia; destruct j as [|[|[|?]]]; try lia; reflexivity.

Lemma ex23_is b l k : is_mat (ex23 b l k) 2 3 (els [[1; 2; 3]; [4; 5; 6]]%Z).
Proof. split; [reflexivity|]. split; [reflexivity|]. intros i j Hi Hj. fin2 i j. Qed.
Lemma ex22_is b l k : is_mat (ex22 b l k) 2 2 (els [[1; 2]; [3; 4]]%Z).
Proof. split; [reflexivity|]. split; [reflexivity|]. intros i j Hi Hj. fin2 i j. Qed.

(** ** C04: layout *)
(** Row r of a row-major r x c array starts at r*c; the addresses of the elements
    are exactly 0 .. rows*cols-1, each once. *)
Theorem layout_addresses : forall l rows cols,
  (forall i j, i < rows -> j < cols -> index l rows cols i j < rows * cols) /\
  (forall k, k < rows * cols ->
     exists i j, i < rows /\ j < cols /\ index l rows cols i j = k /\
       forall i' j', i' < rows -> j' < cols -> index l rows cols i' j' = k -> i' = i /\ j' = j).
Proof.
  intros l r c. split.
  - intros i j. apply index_bound.
  - intros k Hk. assert (H := index_unindex l r c k Hk). destruct (unindex l r c k) as [i j].
    destruct H as (Hi & Hj & E). exists i, j. repeat split; auto.
    + apply (index_inj l r c i' j' i j); auto. congruence.
    + apply (index_inj l r c i' j' i j); auto. congruence.
Qed.
(** data(): the elements row after row, or column after column. *)
Theorem data_order : forall (T : Type) (m : mat T), full m ->
  forall i j, i < mr m -> j < mc m ->
  mget m i j = match nth_error (md m) (match ml m with row_major => i * mc m + j
                                                     | col_major => j * mr m + i end) with
               | Some (Some x) => Ok x
               | _ => UB
               end.
Proof.
  intros T m _ i j Hi Hj. unfold mget. apply Nat.ltb_lt in Hi. apply Nat.ltb_lt in Hj. rewrite Hi, Hj. simpl.
  unfold index. destruct (ml m); reflexivity.
Qed.
Theorem matrix_get_put : forall (T : Type) (m : mat T) i j x,
  full m -> i < mr m -> j < mc m ->
  exists m', mput m i j x = Ok m' /\ full m' /\ mr m' = mr m /\ mc m' = mc m /\ ml m' = ml m /\
    mget m' i j = Ok x /\
    forall i' j', i' <> i \/ j' <> j -> mget m' i' j' = mget m i' j'.
Proof.
  intros T m i j x F Hi Hj. assert (V := view_refines m F).
  assert (P := refines_put m _ i j x V). unfold wr in P. simpl in P.
  assert (Hi' := Hi). assert (Hj' := Hj). apply Nat.ltb_lt in Hi'. apply Nat.ltb_lt in Hj'.
  rewrite Hi', Hj' in P. simpl in P. destruct (mput m i j x) as [m'| |] eqn:E; try tauto.
  exists m'. split; auto. assert (P' := P). destruct P' as (A & B & C & D & K & L & _). simpl in *.
  split; [exact L|]. repeat split; auto.
  - rewrite (refines_get _ _ i j P). unfold rd. simpl. rewrite Hi', Hj'. simpl.
    unfold upd. rewrite !Nat.eqb_refl. reflexivity.
  - intros i' j' Hne. rewrite (refines_get _ _ i' j' P), (refines_get _ _ i' j' V). unfold rd; simpl.
    destruct (_ && _); auto. unfold upd.
    destruct (Nat.eqb_spec i' i), (Nat.eqb_spec j' j); simpl; auto. lia.
Qed.
(** No program of reads, writes and size queries, however it depends on what it
    reads, can tell two matrices with equal elements apart by their layout. *)
Theorem layout_independent : forall (T A : Type) (p : client (T:=T) A) (m1 m2 : mat T),
  full m1 -> full m2 -> same_elements m1 m2 ->
  match run_client p m1, run_client p m2 with
  | Ok (a1, m1'), Ok (a2, m2') => a1 = a2 /\ same_elements m1' m2'
  | UB, UB => True
  | _, _ => False
  end.
Proof. exact (@layout_client_l). Qed.
Definition ex_rm : mat Z := Mat 2 3 row_basis row_major MDynamic [Some 1; Some 2; Some 3; Some 4; Some 5; Some 6]%Z.
Definition ex_cm : mat Z := Mat 2 3 row_basis col_major MDynamic [Some 1; Some 4; Some 2; Some 5; Some 3; Some 6]%Z.
Example layout_independent_ex : full ex_rm /\ full ex_cm /\ same_elements ex_rm ex_cm /\
  run_client (CGet 1 0 (fun x => CPut 0 2 (x * 10) (CGet 0 2 (fun y => CRet y))))%Z ex_rm
  = Ok (40%Z, Mat 2 3 row_basis row_major MDynamic [Some 1; Some 2; Some 40; Some 4; Some 5; Some 6]%Z).
Proof.
  split; [reflexivity|]. split; [reflexivity|]. split; [|reflexivity].
  split; [reflexivity|]. split; [reflexivity|]. intros i j.
  destruct i as [|[|i]]; destruct j as [|[|[|j]]]; reflexivity.
Qed.
(** The (row, column) view used by the algorithms below: every get, put and resize
    on storage has the same outcome on the view. *)
Theorem storage_view : forall (T : Type) (m : mat T), full m ->
  (forall i j, mget m i j = rd (view m) i j) /\
  (forall i j x, match mput m i j x, wr (view m) i j x with
                 | Ok m', Ok f' => refines m' f' | UB, UB => True | _, _ => False end) /\
  (forall rows cols, match mresize m rows cols, resize (view m) rows cols with
                 | Ok m', Ok f' => refines m' f' | Throw e, Throw e' => e = e' | UB, UB => True
                 | _, _ => False end).
Proof.
  intros T m F. assert (V := view_refines m F). split; [|split].
  - intros. now apply refines_get.
  - intros. now apply refines_put.
  - intros. now apply refines_resize.
Qed.

(** Resizing keeps data(), not the elements by row and column. *)
Theorem matrix_resize_linear : forall (T : Type) (m : mat T) r c,
  full m -> mk m = MDynamic ->
  exists m', mresize m (Z.of_nat r) (Z.of_nat c) = Ok m' /\ full m' /\ mr m' = r /\ mc m' = c /\
    ml m' = ml m /\ mb m' = mb m /\
    forall k, k < r * c -> k < mr m * mc m -> nth_error (md m') k = nth_error (md m) k.
Proof.
  intros T m r c F K. unfold mresize. rewrite K, !(proj2 (Z.leb_le _ _)) by lia. simpl.
  rewrite !Nat2Z.id. eexists. split; [reflexivity|]. unfold full in *. simpl.
  rewrite app_length, firstn_length, repeat_length. repeat split; auto; try lia.
  intros k H1 H2. rewrite nth_error_app1 by (rewrite firstn_length; lia).
  rewrite <- (firstn_skipn (r * c) (md m)) at 2. rewrite nth_error_app1; auto. rewrite firstn_length. lia.
Qed.
Theorem matrix_resize_elements_refuted : exists (m m' : mat Z),
  full m /\ mresize m 2 4 = Ok m' /\ mget m 1 0 = Ok 4%Z /\ mget m' 1 0 = Ok 5%Z.
Proof. exists ex_rm. eexists. split; [reflexivity|]. split; [reflexivity|]. split; reflexivity. Qed.
Theorem matrix_resize_negative : forall (T : Type) (m : mat T) rows cols,
  mk m <> MFixed -> (rows < 0 \/ cols < 0)%Z -> mresize m rows cols = Throw EInvalidArgument.
Proof.
  intros T m rows cols Hk H. unfold mresize. destruct (mk m); try congruence;
    destruct (Z.leb_spec 0 rows); simpl; auto; destruct (Z.leb_spec 0 cols); simpl; auto; lia.
Qed.

(** ** C01/C02 for matrices: assignment *)
(** [self_straight]: the target occurs only under an even number of transpose(). *)
Theorem matrix_assign : forall (T : Type) (m : fmat T) (e : mexpr T) r c (F : nat -> nat -> T),
  x_shape (fr m, fc m) e = Some (r, c) ->
  (forall i j, i < r -> j < c -> x_val (fe m) e i j = Some (F i j)) ->
  self_straight false e -> self_free e \/ (fr m = r /\ fc m = c) -> can_take m r c ->
  exists m', m_assign m e = Ok m' /\ same_type m m' /\ is_mat m' r c F.
Proof. exact (@m_assign_l). Qed.
Example matrix_assign_ex :
  let m := ex22 row_basis col_major MFixed in
  let e := XBin Z.add (XScal Z.mul XSelf 10%Z)
             (XTrans (XBin Z.sub (XTrans XSelf) (XMat (ex22 row_basis row_major MFixed)))) in
  x_shape (fr m, fc m) e = Some (2, 2) /\ self_straight false e /\ can_take m 2 2 /\
  out_rows (m_assign m e) = Some [[Some 10; Some 19]; [Some 31; Some 40]]%Z.
Proof. repeat split. Qed.
Example matrix_assign_resize_ex :
  out_rows (m_assign (fresh 0 0 row_basis col_major MDynamic) (XTrans (XMat (ex23 row_basis row_major MDynamic))))
  = Some [[Some 1; Some 4]; [Some 2; Some 5]; [Some 3; Some 6]]%Z.
Proof. reflexivity. Qed.
Theorem matrix_compound : forall (T : Type) (op : T -> T -> T) (m : fmat T) (e : mexpr T) r c
    (M F : nat -> nat -> T),
  is_mat m r c M -> x_shape (r, c) e = Some (r, c) ->
  (forall i j, i < r -> j < c -> x_val (fe m) e i j = Some (F i j)) -> self_straight false e ->
  exists m', m_compound op m e = Ok m' /\ same_type m m' /\ is_mat m' r c (fun i j => op (M i j) (F i j)).
Proof. exact (@m_compound_l). Qed.
Example matrix_compound_ex :
  is_mat (ex23 row_basis col_major MDynamic) 2 3 (els [[1; 2; 3]; [4; 5; 6]]%Z) /\
  out_rows (m_compound Z.sub (ex23 row_basis col_major MDynamic)
     (XBin Z.add XSelf (XMat (ex23 col_basis row_major MFixed))))
  = Some [[Some (-1); Some (-2); Some (-3)]; [Some (-4); Some (-5); Some (-6)]]%Z.
Proof. split; [apply ex23_is|reflexivity]. Qed.
(** m = transpose(m) loses elements: the target gets neither transpose(m) nor m. *)
Theorem aliased_transpose_refuted : exists (m m' : fmat Z),
  is_mat m 2 2 (els [[1; 2]; [3; 4]]%Z) /\ x_val (fe m) (XTrans XSelf) 1 0 = Some 2%Z /\
  m_assign m (XTrans XSelf) = Ok m' /\ fe m' 1 0 = Some 3%Z.
Proof.
  exists (ex22 row_basis row_major MFixed). eexists. split; [apply ex22_is|].
  split; [reflexivity|]. split; reflexivity.
Qed.

(** ** C03: scaling *)
Theorem matrix_scale_by_outside : forall (T : Type) (op : T -> T -> T) (m : fmat T) r c M k,
  is_mat m r c M ->
  exists m', m_scale op m (RVal k) = Ok m' /\ same_type m m' /\ is_mat m' r c (fun i j => op (M i j) k).
Proof. exact (@m_scale_val_l). Qed.
(** m *= m(p,q): elements stored after (p,q) use the updated value. *)
Theorem matrix_scale_by_own_element : forall (T : Type) (op : T -> T -> T) (m : fmat T) r c M p q,
  is_mat m r c M -> p < r -> q < c ->
  exists m', m_scale op m (RElem p q) = Ok m' /\ same_type m m' /\
    is_mat m' r c (fun i j => if beforeb (fl m) p q i j then op (M i j) (op (M p q) (M p q))
                              else op (M i j) (M p q)).
Proof. exact (@m_scale_elem_l). Qed.
Example matrix_scale_ex :
  out_rows (m_scale Z.mul (ex22 row_basis row_major MFixed) (RElem 0 1))
  = Some [[Some 2; Some 4]; [Some 12; Some 16]]%Z /\
  out_rows (m_scale Z.mul (ex22 row_basis col_major MFixed) (RElem 0 1))
  = Some [[Some 2; Some 4]; [Some 6; Some 16]]%Z /\
  out_rows (m_scale Z.mul (ex22 row_basis col_major MFixed) (RVal 2%Z))
  = Some [[Some 2; Some 4]; [Some 6; Some 8]]%Z.
Proof. repeat split. Qed.
(** fill(x) stores x everywhere, also when x is an element of the matrix. *)
Theorem matrix_fill : forall (T : Type) (m : fmat T) x,
  (exists m', m_fill m (RVal x) = Ok m' /\ same_type m m' /\ is_mat m' (fr m) (fc m) (fun _ _ => x)) /\
  (forall p q, p < fr m -> q < fc m -> fe m p q = Some x ->
   exists m', m_fill m (RElem p q) = Ok m' /\ same_type m m' /\ is_mat m' (fr m) (fc m) (fun _ _ => x)).
Proof. intros T m x. split; [apply m_fill_val_l|]. intros; now apply (m_fill_elem_l m p q). Qed.

(** ** C05: transpose *)
Theorem transpose_expression : forall (T : Type) (m : fmat T) (e : mexpr T) r c F,
  x_shape (fr m, fc m) e = Some (r, c) ->
  (forall i j, i < r -> j < c -> x_val (fe m) e i j = Some (F i j)) ->
  reads (of_mexpr m (XTrans e)) c r (fun i j => F j i) /\
  reads (of_mexpr m (XTrans (XTrans e))) r c F.
Proof.
  intros T m e r c F Hs Hv. split; apply reads_of_mexpr; simpl; rewrite ?Hs; auto.
Qed.
Theorem transpose_in_place : forall (T : Type) (m : fmat T) r c M,
  is_mat m r c M -> (fk m = MFixed -> r = c) ->
  exists m', m_transpose m = Ok m' /\ same_type m m' /\ is_mat m' c r (fun i j => M j i).
Proof. exact (@m_transpose_l). Qed.
Theorem transpose_twice : forall (T : Type) (m : fmat T) r c M,
  is_mat m r c M -> (fk m = MFixed -> r = c) ->
  exists m' m'', m_transpose m = Ok m' /\ m_transpose m' = Ok m'' /\ is_mat m'' r c M.
Proof.
  intros T m r c M H K. destruct (m_transpose_l m r c M H K) as (m' & E & (_ & _ & S) & I).
  destruct (m_transpose_l m' c r _ I) as (m'' & E' & _ & I').
  { intros Q. symmetry. apply K. congruence. }
  exists m', m''. auto.
Qed.
Example transpose_ex :
  out_rows (m_transpose (ex22 row_basis col_major MFixed)) = Some [[Some 1; Some 3]; [Some 2; Some 4]]%Z /\
  out_rows (m_transpose (ex23 row_basis col_major MExternal))
    = Some [[Some 1; Some 4]; [Some 2; Some 5]; [Some 3; Some 6]]%Z.
Proof. split; reflexivity. Qed.

(** ** C06: products *)
Theorem product_entries : forall (T : Type) (Op : Ops T) (a b : rmat T) r n c A B bs l k,
  (forall x : T, add zero x = x) ->
  reads a r n A -> reads b n c B -> 0 < n ->
  exists m, product a b bs l k = Ok m /\ fb m = bs /\ fl m = l /\ fk m = k /\
    is_mat m r c (fun i j => sum_n n (fun q => mul (A i q) (B q j))).
Proof. intros T Op a b r n c A B bs l k H. now apply product_l. Qed.
(** Operands: matrices and expressions, of any layout. *)
Theorem operands : forall (T : Type) (m : fmat T) r c M (e : mexpr T) r' c' F,
  (is_mat m r c M -> reads (of_fmat m) r c M) /\
  (x_shape (fr m, fc m) e = Some (r', c') ->
   (forall i j, i < r' -> j < c' -> x_val (fe m) e i j = Some (F i j)) -> reads (of_mexpr m e) r' c' F).
Proof. intros. split; [apply reads_of_fmat|apply reads_of_mexpr]. Qed.
Example product_ex :
  out_rows (product (of_fmat (ex22 row_basis col_major MFixed)) (of_fmat (ex23 row_basis row_major MDynamic))
     row_basis col_major MDynamic) = Some [[Some 9; Some 12; Some 15]; [Some 19; Some 26; Some 33]]%Z.
Proof. reflexivity. Qed.
Theorem product_associative : forall (T : Type) (Op : Ops T) (a b c : rmat T) p q r s A B C bs l k,
  ring_theory zero one add mul sub neg (@eq T) ->
  reads a p q A -> reads b q r B -> reads c r s C -> 0 < q -> 0 < r ->
  exists ab bc left right F,
    product a b bs l k = Ok ab /\ product (of_fmat ab) c bs l k = Ok left /\
    product b c bs l k = Ok bc /\ product a (of_fmat bc) bs l k = Ok right /\
    is_mat left p s F /\ is_mat right p s F.
Proof.
  intros T Op a b c p q r s A B C bs l k RT Ha Hb Hc Hq Hr.
  assert (Z0 := ring_add_0_l RT).
  destruct (product_l Z0 a b p q r A B bs l k Ha Hb Hq) as (ab & E1 & _ & _ & _ & I1).
  destruct (product_l Z0 b c q r s B C bs l k Hb Hc Hr) as (bc & E2 & _ & _ & _ & I2).
  destruct (product_l Z0 (of_fmat ab) c p r s _ C bs l k (reads_of_fmat _ _ _ _ I1) Hc Hr)
    as (lf & E3 & _ & _ & _ & I3).
  destruct (product_l Z0 a (of_fmat bc) p q s A _ bs l k Ha (reads_of_fmat _ _ _ _ I2) Hq)
    as (rt & E4 & _ & _ & _ & (J1 & J2 & J3)).
  exists ab, bc, lf, rt. eexists. repeat (split; [eassumption|]).
  intros i j Hi Hj. rewrite J3 by auto. f_equal.
  symmetry. apply (sum_assoc RT q r (A i) B (fun x => C x j)).
Qed.
Theorem product_distributes : forall (T : Type) (Op : Ops T) (a b c : fmat T) p q r A B C bs l k,
  ring_theory zero one add mul sub neg (@eq T) ->
  is_mat a p q A -> is_mat b q r B -> is_mat c q r C -> 0 < q ->
  exists lhs ab ac F G, 
    product (of_fmat a) (of_mexpr a (XBin add (XMat b) (XMat c))) bs l k = Ok lhs /\
    product (of_fmat a) (of_fmat b) bs l k = Ok ab /\ product (of_fmat a) (of_fmat c) bs l k = Ok ac /\
    is_mat ab p r F /\ is_mat ac p r G /\ is_mat lhs p r (fun i j => add (F i j) (G i j)).
Proof.
  intros T Op a b c p q r A B C bs l k RT Ha Hb Hc Hq.
  assert (Z0 := ring_add_0_l RT).
  assert (Rs : reads (of_mexpr a (XBin add (XMat b) (XMat c))) q r (fun i j => add (B i j) (C i j))).
  { apply reads_of_mexpr; simpl; destruct Hb as (B1 & B2 & B3); destruct Hc as (C1 & C2 & C3).
    - now rewrite B1, B2, C1, C2, !Nat.eqb_refl.
    - intros i j Hi Hj. now rewrite B3, C3. }
  destruct (product_l Z0 _ _ p q r A _ bs l k (reads_of_fmat _ _ _ _ Ha) Rs Hq) as (lhs & E1 & _ & _ & _ & (J1 & J2 & J3)).
  destruct (product_l Z0 _ _ p q r A B bs l k (reads_of_fmat _ _ _ _ Ha) (reads_of_fmat _ _ _ _ Hb) Hq)
    as (ab & E2 & _ & _ & _ & I2).
  destruct (product_l Z0 _ _ p q r A C bs l k (reads_of_fmat _ _ _ _ Ha) (reads_of_fmat _ _ _ _ Hc) Hq)
    as (ac & E3 & _ & _ & _ & I3).
  exists lhs, ab, ac. eexists. eexists. repeat (split; [eassumption|]).
  intros i j Hi Hj. rewrite J3 by auto. f_equal.
  rewrite <- (sum_add RT). apply sum_ext. intros x _. apply (mul_add_T RT).
Qed.
(** transpose(a*b) = transpose(b)*transpose(a) *)
Theorem product_transpose : forall (T : Type) (Op : Ops T) (a b : fmat T) p q r A B bs l k,
  ring_theory zero one add mul sub neg (@eq T) ->
  is_mat a p q A -> is_mat b q r B -> 0 < q ->
  exists ab ba F, product (of_fmat a) (of_fmat b) bs l k = Ok ab /\
    product (of_mexpr b (XTrans XSelf)) (of_mexpr a (XTrans XSelf)) bs l k = Ok ba /\
    is_mat ab p r F /\ is_mat ba r p (fun i j => F j i).
Proof.
  intros T Op a b p q r A B bs l k RT Ha Hb Hq. assert (Z0 := ring_add_0_l RT).
  destruct (product_l Z0 _ _ p q r A B bs l k (reads_of_fmat _ _ _ _ Ha) (reads_of_fmat _ _ _ _ Hb) Hq)
    as (ab & E2 & _ & _ & _ & I2).
  assert (Ta : reads (of_mexpr a (XTrans XSelf)) q p (fun i j => A j i)).
  { apply reads_of_mexpr; destruct Ha as (B1 & B2 & B3); simpl; auto. now rewrite B1, B2. }
  assert (Tb : reads (of_mexpr b (XTrans XSelf)) r q (fun i j => B j i)).
  { apply reads_of_mexpr; destruct Hb as (B1 & B2 & B3); simpl; auto. now rewrite B1, B2. }
  destruct (product_l Z0 _ _ r q p _ _ bs l k Tb Ta Hq) as (ba & E3 & _ & _ & _ & (J1 & J2 & J3)).
  exists ab, ba. eexists. repeat (split; [eassumption|]).
  intros i j Hi Hj. rewrite J3 by auto. f_equal. apply sum_ext. intros x _. apply (mul_comm_T RT).
Qed.
(** m.identity() is neutral *)
Theorem product_identity : forall (T : Type) (Op : Ops T) (a i0 : fmat T) p q A bs l k,
  ring_theory zero one add mul sub neg (@eq T) ->
  is_mat a p q A -> 0 < p -> 0 < q ->
  (fr i0 = q -> fc i0 = q -> exists id m, m_identity i0 = Ok id /\
     product (of_fmat a) (of_fmat id) bs l k = Ok m /\ is_mat m p q A) /\
  (fr i0 = p -> fc i0 = p -> exists id m, m_identity i0 = Ok id /\
     product (of_fmat id) (of_fmat a) bs l k = Ok m /\ is_mat m p q A).
Proof.
  intros T Op a i0 p q A bs l k RT Ha Hp Hq. assert (Z0 := ring_add_0_l RT).
  destruct (generate_ok i0 (fun i j => if Nat.eqb i j then one else zero)) as (id & E & _ & I).
  split; intros Hr Hc; rewrite Hr, Hc in I; exists id.
  - destruct (product_l Z0 _ _ p q q A _ bs l k (reads_of_fmat _ _ _ _ Ha) (reads_of_fmat _ _ _ _ I) Hq)
      as (m & E2 & _ & _ & _ & (J1 & J2 & J3)).
    exists m. split; auto. split; auto. split; auto. split; auto. intros i j Hi Hj. rewrite J3 by auto. f_equal.
    apply (mul_id_r RT q j (A i)); auto.
  - destruct (product_l Z0 _ _ p p q _ A bs l k (reads_of_fmat _ _ _ _ I) (reads_of_fmat _ _ _ _ Ha) Hp)
      as (m & E2 & _ & _ & _ & (J1 & J2 & J3)).
    exists m. split; auto. split; auto. split; auto. split; auto. intros i j Hi Hj. rewrite J3 by auto. f_equal.
    apply (sum_delta RT p i (fun q => A q j)); auto.
Qed.
Lemma nth_map_seq {A} (f : nat -> A) n i d : i < n -> nth i (map f (seq 0 n)) d = f i.
Proof.
  intros H. rewrite (nth_indep _ d (f 0)) by (now rewrite map_length, seq_length).
  rewrite map_nth, seq_nth by auto. reflexivity.
Qed.
(** M*v and v*M as products with a one-column / one-row matrix. *)
Theorem matrix_vector_products : forall (T : Type) (Op : Ops T) (a : rmat T) (col row : rmat T) r c A v w d bs l k,
  (forall x : T, add zero x = x) ->
  reads a r c A -> 0 < r -> 0 < c ->
  length v = c -> reads col c 1 (fun i _ => nth i v d) ->
  length w = r -> reads row 1 r (fun _ j => nth j w d) ->
  exists av wa m1 m2, mat_vec a v = Ok av /\ vec_mat w a = Ok wa /\
    length av = r /\ length wa = c /\
    product a col bs l k = Ok m1 /\ is_mat m1 r 1 (fun i _ => nth i av d) /\
    product row a bs l k = Ok m2 /\ is_mat m2 1 c (fun _ j => nth j wa d).
Proof.
  intros T Op a col row r c A v w d bs l k Z0 Ha Hr Hc Hv Hcol Hw Hrow.
  destruct (product_l Z0 a col r c 1 A _ bs l k Ha Hcol Hc) as (m1 & E1 & _ & _ & _ & (J1 & J2 & J3)).
  destruct (product_l Z0 row a 1 r c _ A bs l k Hrow Ha Hr) as (m2 & E2 & _ & _ & _ & (K1 & K2 & K3)).
  rewrite (mat_vec_l Z0 a v r c A d Ha Hv Hc), (vec_mat_l Z0 w a r c A d Hw Ha Hr).
  eexists. eexists. exists m1, m2. split; [reflexivity|]. split; [reflexivity|].
  rewrite !map_length, !seq_length. split; auto. split; auto.
  split; auto. split.
  { split; auto. split; auto. intros i j Hi Hj. rewrite J3 by auto. f_equal.
    now rewrite nth_map_seq. }
  split; auto. split; auto. split; auto. intros i j Hi Hj. rewrite K3 by auto. f_equal.
  now rewrite nth_map_seq.
Qed.
Example matrix_vector_ex :
  mat_vec (of_fmat (ex23 row_basis row_major MFixed)) [1; 0; 2]%Z = Ok [7; 16]%Z /\
  vec_mat [1; 2]%Z (of_fmat (ex23 row_basis row_major MFixed)) = Ok [9; 12; 15]%Z.
Proof. split; reflexivity. Qed.
(** With an empty inner dimension the product reads outside the operands. *)
Theorem product_inner_zero_reads_outside : forall (T : Type) (Op : Ops T) (a b : fmat T) bs l k,
  fc a = 0 -> fr b = 0 -> 0 < fr a -> 0 < fc b -> product (of_fmat a) (of_fmat b) bs l k = UB.
Proof. exact (@product_inner0). Qed.

(** ** C07: size checks of matrix operations *)
Theorem matrix_wrong_sizes : forall (T : Type) (Op : Ops T) (m : fmat T) (e : mexpr T) op,
  (x_shape (fr m, fc m) e = None ->
     m_assign m e = Throw EIncompatibleMatrixSize /\ m_compound op m e = Throw EIncompatibleMatrixSize) /\
  (forall r c, x_shape (fr m, fc m) e = Some (r, c) -> ~ can_take m r c ->
     let ex := match fk m with MFixed => EIncompatibleMatrixSize | _ => EMatrixSize end in
     m_assign m e = Throw ex /\ m_compound op m e = Throw ex).
Proof.
  intros T Op m e op. split.
  - intros H. assert (B : x_build m e = Throw EIncompatibleMatrixSize).
    { induction e as [|a|f e IH|f e1 IH1 e2 IH2|f e IH k|e IH|f u v]; simpl in *; try discriminate; auto.
      - destruct (x_shape _ e1) as [[r1 c1]|] eqn:S1; [|now rewrite IH1].
        destruct (x_shape_dims m e1 _ _ S1) as (A1 & A2 & A3). rewrite A1, A2, A3. simpl.
        destruct (x_shape _ e2) as [[r2 c2]|] eqn:S2; [|now rewrite IH2].
        destruct (x_shape_dims m e2 _ _ S2) as (B1 & B2 & B3). rewrite B1, B2, B3. simpl.
        destruct (_ && _); [discriminate|reflexivity].
      - destruct (x_shape _ e) as [[r1 c1]|]; [discriminate|auto]. }
    unfold m_assign, m_compound. now rewrite B.
  - intros r c Hs Hn. destruct (x_shape_dims m e r c Hs) as (A1 & A2 & A3).
    unfold m_assign, m_compound. rewrite A1, A2, A3. simpl. now rewrite (check_or_resize_no m r c Hn).
Qed.
Theorem matrix_wrong_arguments : forall (T : Type) (Op : Ops T) (m : fmat T) (a b : rmat T) (v : list T) bs l k,
  (rc a <> rr b -> product a b bs l k = Throw EIncompatibleMatrixInnerSize) /\
  (rc a <> length v -> mat_vec a v = Throw EIncompatibleMatrixInnerSize) /\
  (length v <> rr b -> vec_mat v b = Throw EIncompatibleMatrixInnerSize) /\
  (rr a <> rc a -> trace a = Throw ENonSquareMatrix) /\
  (forall i, length v <> fc m -> set_row m i v = Throw EIncompatibleMatrixColSize) /\
  (forall j, length v <> fr m -> set_col m j v = Throw EIncompatibleMatrixRowSize) /\
  (forall ex, length v <> fr m * fc m -> assign_list ex m v = Throw ex) /\
  (forall i, (i < 0)%Z -> row_of m i = Throw EInvalidArgument /\ col_of m i = Throw EInvalidArgument /\
     basis_of m i = Throw EInvalidArgument).
Proof.
  intros T Op m a b v bs l k.
  assert (N : forall x y, x <> y -> Nat.eqb x y = false) by (intros; now apply Nat.eqb_neq).
  unfold product, mat_vec, vec_mat, trace, set_row, set_col, assign_list, row_of, col_of, basis_of.
  repeat split; intros; try rewrite (N _ _ H); try rewrite (N _ _ (not_eq_sym H)); simpl; auto;
    rewrite (proj2 (Z.leb_gt _ _)) by lia; reflexivity.
Qed.
Example matrix_wrong_sizes_ex :
  x_shape (2, 3) (XBin Z.add (XMat (ex22 row_basis row_major MDynamic)) XSelf) = None /\
  ~ can_take (ex23 row_basis row_major MExternal) 2 2 /\ ~ can_take (ex23 row_basis row_major MFixed) 3 2.
Proof. repeat split; unfold can_take; simpl; try lia. Qed.
(** A too large row index is not checked. *)
Theorem row_index_check_refuted : exists (m : fmat Z),
  is_mat m 2 3 (els [[1; 2; 3]; [4; 5; 6]]%Z) /\ row_of m 2 = UB.
Proof. exists (ex23 row_basis row_major MFixed). split; [apply ex23_is|reflexivity]. Qed.
(** += between matrices of different shape: not an error when the target can be
    reshaped.  Dynamic: the target takes the operand's shape and keeps linear data;
    external with as many elements: likewise. *)
Theorem matrix_compound_size_error_refuted :
  (exists m, fk m = MDynamic /\ fr m = 2 /\ fc m = 3 /\
     out_rows (m_compound Z.add m (XMat (ex22 row_basis row_major MFixed)))
     = Some [[Some 2; Some 4]; [Some 6; Some 8]]%Z) /\
  (exists m, fk m = MExternal /\ fr m = 2 /\ fc m = 3 /\
     out_rows (m_compound Z.add m (XTrans (XMat (ex23 row_basis row_major MFixed))))
     = Some [[Some 2; Some 6]; [Some 5; Some 9]; [Some 8; Some 12]]%Z) /\
  (exists m, fk m = MDynamic /\ fr m = 2 /\ fc m = 2 /\
     m_compound Z.add m (XMat (ex23 row_basis row_major MFixed)) = UB).
Proof.
  split; [|split].
  - exists (ex23 row_basis row_major MDynamic). vm_compute. auto.
  - exists (ex23 row_basis row_major MExternal). vm_compute. auto.
  - exists (ex22 row_basis row_major MDynamic). vm_compute. auto.
Qed.

(** ** C44: rows, columns, basis vectors *)
Theorem set_row_exact : forall (T : Type) (m : fmat T) i v d,
  i < fr m -> length v = fc m ->
  exists m', set_row m i v = Ok m' /\ same_type m m' /\ fr m' = fr m /\ fc m' = fc m /\
    forall i' j', i' < fr m -> j' < fc m -> fe m' i' j' = if i' =? i then Some (nth j' v d) else fe m i' j'.
Proof. exact (@set_row_l). Qed.
Theorem set_col_exact : forall (T : Type) (m : fmat T) j v d,
  j < fc m -> length v = fr m ->
  exists m', set_col m j v = Ok m' /\ same_type m m' /\ fr m' = fr m /\ fc m' = fc m /\
    forall i' j', i' < fr m -> j' < fc m -> fe m' i' j' = if j' =? j then Some (nth i' v d) else fe m i' j'.
Proof. exact (@set_col_l). Qed.
Theorem row_and_column_views : forall (T : Type) (m : fmat T) r c M,
  is_mat m r c M ->
  (forall i, i < r -> row_of m (Z.of_nat i) = Ok (map (M i) (seq 0 c))) /\
  (forall j, j < c -> col_of m (Z.of_nat j) = Ok (map (fun i => M i j) (seq 0 r))).
Proof. intros T m r c M H. split; intros; [eapply row_of_l|eapply col_of_l]; eauto. Qed.
Lemma map_nth_seq {T} (v : list T) d : map (fun j => nth j v d) (seq 0 (length v)) = v.
Proof.
  apply list_ext. intros k. destruct (Nat.lt_ge_cases k (length v)).
  - rewrite (nth_error_nth' (map _ _) d) by (now rewrite map_length, seq_length).
    rewrite nth_map_seq by auto. symmetry. now apply nth_error_nth'.
  - rewrite (proj2 (nth_error_None _ _)) by (rewrite map_length, seq_length; lia).
    symmetry. now apply nth_error_None.
Qed.
Theorem read_back : forall (T : Type) (m : fmat T) v,
  (forall i, i < fr m -> length v = fc m -> exists m', set_row m i v = Ok m' /\ row_of m' (Z.of_nat i) = Ok v) /\
  (forall j, j < fc m -> length v = fr m -> exists m', set_col m j v = Ok m' /\ col_of m' (Z.of_nat j) = Ok v).
Proof.
  intros T m v. split.
  - intros i Hi Hl. destruct v as [|d v0] eqn:Ev.
    + unfold set_row, row_of. simpl in *. rewrite <- Hl. simpl. exists m. split; auto.
      rewrite (proj2 (Z.leb_le _ _)) by lia. simpl. now rewrite <- Hl.
    + rewrite <- Ev in *. destruct (set_row_l m i v d Hi Hl) as (m' & E & _ & D1 & D2 & V). exists m'. split; auto.
      unfold row_of. rewrite (proj2 (Z.leb_le _ _)) by lia. simpl. rewrite Nat2Z.id, D2, <- Hl.
      rewrite (mapO_pure _ (fun j => nth j v d)); [now rewrite map_nth_seq|].
      intros j Hj. apply in_seq in Hj. apply rd_ok; try lia. rewrite V, Nat.eqb_refl by lia. auto.
  - intros j Hi Hl. destruct v as [|d v0] eqn:Ev.
    + unfold set_col, col_of. simpl in *. rewrite <- Hl. simpl. exists m. split; auto.
      rewrite (proj2 (Z.leb_le _ _)) by lia. simpl. now rewrite <- Hl.
    + rewrite <- Ev in *. destruct (set_col_l m j v d Hi Hl) as (m' & E & _ & D1 & D2 & V). exists m'. split; auto.
      unfold col_of. rewrite (proj2 (Z.leb_le _ _)) by lia. simpl. rewrite Nat2Z.id, D1, <- Hl.
      rewrite (mapO_pure _ (fun j => nth j v d)); [now rewrite map_nth_seq|].
      intros i Hj. apply in_seq in Hj. apply rd_ok; try lia. rewrite V, Nat.eqb_refl by lia. auto.
Qed.
(** Basis vector i is row i (row basis) or column i (column basis). *)
Theorem basis_vectors : forall (T : Type) (m : fmat T) r c M,
  is_mat m r c M ->
  (fb m = row_basis -> (forall i j, i < r -> j < c -> basis_element m i j = Ok (M i j)) /\
     forall i, i < r -> basis_of m (Z.of_nat i) = Ok (map (M i) (seq 0 c))) /\
  (fb m = col_basis -> (forall i j, i < c -> j < r -> basis_element m i j = Ok (M j i)) /\
     forall i, i < c -> basis_of m (Z.of_nat i) = Ok (map (fun k => M k i) (seq 0 r))).
Proof.
  intros T m r c M H. split; intros B; split.
  - intros i j Hi Hj. unfold basis_element. rewrite B. destruct H as (H1 & H2 & H3). apply rd_ok; auto; lia.
  - intros i Hi. rewrite basis_of_l, B. eapply row_of_l; eauto.
  - intros i j Hi Hj. unfold basis_element. rewrite B. destruct H as (H1 & H2 & H3). apply rd_ok; auto; lia.
  - intros i Hi. rewrite basis_of_l, B. eapply col_of_l; eauto.
Qed.
Theorem set_basis_element_exact : forall (T : Type) (m : fmat T) i j x,
  i < basis_count m -> j < basis_size m ->
  exists m', set_basis_element m i j x = Ok m' /\ same_type m m' /\ fr m' = fr m /\ fc m' = fc m /\
    basis_element m' i j = Ok x /\
    forall i' j', i' <> i \/ j' <> j -> basis_element m' i' j' = basis_element m i' j'.
Proof.
  intros T m i j x Hi Hj. unfold set_basis_element, basis_count, basis_size, basis_element in *.
  destruct (fb m) eqn:B.
  - destruct (wr_ok m i j x Hi Hj) as (m' & E & (D1 & D2 & D3 & D4 & D5) & V). exists m'. split; auto.
    split; [unfold same_type; auto|]. split; auto. split; auto. rewrite D3, B. split.
    + apply rd_ok; try lia. rewrite V, !Nat.eqb_refl. auto.
    + intros i' j' Hne. unfold rd. rewrite D1, D2, V. destruct (_ && _); auto.
      destruct (Nat.eqb_spec i' i), (Nat.eqb_spec j' j); simpl; auto. lia.
  - destruct (wr_ok m j i x Hj Hi) as (m' & E & (D1 & D2 & D3 & D4 & D5) & V). exists m'. split; auto.
    split; [unfold same_type; auto|]. split; auto. split; auto. rewrite D3, B. split.
    + apply rd_ok; try lia. rewrite V, !Nat.eqb_refl. auto.
    + intros i' j' Hne. unfold rd. rewrite D1, D2, V. destruct (_ && _); auto.
      destruct (Nat.eqb_spec i' i), (Nat.eqb_spec j' j); simpl; auto. lia.
Qed.
(** A row-basis matrix and the transposed column-basis matrix have the same basis
    vectors. *)
Theorem basis_of_transpose : forall (T : Type) (m m' : fmat T) r c M,
  is_mat m r c M -> fb m = row_basis -> is_mat m' c r (fun i j => M j i) -> fb m' = col_basis ->
  forall i, i < r -> basis_of m (Z.of_nat i) = basis_of m' (Z.of_nat i).
Proof.
  intros T m m' r c M H B H' B' i Hi. rewrite !basis_of_l, B, B'.
  rewrite (row_of_l m r c M), (col_of_l m' c r _ i H'); auto.
Qed.
Example rows_ex :
  out_rows (set_row (ex23 row_basis col_major MFixed) 1 [7; 8; 9]%Z) = Some [[Some 1; Some 2; Some 3]; [Some 7; Some 8; Some 9]]%Z /\
  out_rows (set_col (ex23 row_basis col_major MFixed) 2 [7; 8]%Z) = Some [[Some 1; Some 2; Some 7]; [Some 4; Some 5; Some 8]]%Z /\
  basis_of (ex23 col_basis col_major MFixed) 2 = Ok [3; 6]%Z /\
  out_rows (set_basis_element (ex23 col_basis col_major MFixed) 2 1 0%Z) = Some [[Some 1; Some 2; Some 3]; [Some 4; Some 5; Some 0]]%Z.
Proof. repeat split. Qed.
(** Element lists, arrays and pointers fill in row order whatever the layout. *)
Theorem matrix_from_list : forall (T : Type) (m : fmat T) l d,
  (length l = fr m * fc m -> forall ex, exists m', assign_list ex m l = Ok m' /\ same_type m m' /\
     is_mat m' (fr m) (fc m) (fun i j => nth (i * fc m + j) l d)) /\
  (fr m * fc m <= length l -> exists m', assign_pointer m l = Ok m' /\ same_type m m' /\
     is_mat m' (fr m) (fc m) (fun i j => nth (i * fc m + j) l d)).
Proof. intros T m l d. split; intros; [now apply assign_list_l|now apply assign_pointer_l]. Qed.
Example matrix_from_list_ex :
  out_rows (assign_list EMatrixSize (fresh 2 3 row_basis col_major MFixed) [1; 2; 3; 4; 5; 6]%Z)
  = Some [[Some 1; Some 2; Some 3]; [Some 4; Some 5; Some 6]]%Z.
Proof. reflexivity. Qed.
(** zero() and identity() *)
Theorem matrix_zero_identity : forall (T : Type) (Op : Ops T) (m : fmat T),
  (exists m', m_zero m = Ok m' /\ same_type m m' /\ is_mat m' (fr m) (fc m) (fun _ _ => zero)) /\
  (exists m', m_identity m = Ok m' /\ same_type m m' /\
     is_mat m' (fr m) (fc m) (fun i j => if Nat.eqb i j then one else zero)).
Proof. intros T Op m. split; apply generate_ok. Qed.

(** ** C45: trace *)
Theorem trace_sum : forall (T : Type) (Op : Ops T) (a : rmat T) n A,
  (forall x : T, add zero x = x) -> reads a n n A -> 0 < n -> trace a = Ok (sum_n n (fun i => A i i)).
Proof. intros T Op a n A H. now apply trace_l. Qed.
Theorem trace_transpose : forall (T : Type) (Op : Ops T) (m : fmat T) n M,
  (forall x : T, add zero x = x) -> is_mat m n n M -> 0 < n ->
  exists t, trace (of_fmat m) = Ok t /\ trace (of_mexpr m (XTrans XSelf)) = Ok t.
Proof.
  intros T Op m n M Z0 H Hn. eexists. split; [apply (trace_l Z0 _ n M); auto; now apply reads_of_fmat|].
  apply (trace_l Z0 _ n (fun i j => M j i)); auto.
  destruct H as (B1 & B2 & B3). apply reads_of_mexpr; simpl; auto. now rewrite B1, B2.
Qed.
Theorem trace_linear : forall (T : Type) (Op : Ops T) (a b : fmat T) n A B k,
  ring_theory zero one add mul sub neg (@eq T) -> is_mat a n n A -> is_mat b n n B -> 0 < n ->
  exists x y, trace (of_fmat a) = Ok x /\ trace (of_fmat b) = Ok y /\
    trace (of_mexpr a (XBin add XSelf (XMat b))) = Ok (add x y) /\
    trace (of_mexpr a (XScal mul XSelf k)) = Ok (mul x k).
Proof.
  intros T Op a b n A B k RT Ha Hb Hn. assert (Z0 := ring_add_0_l RT).
  eexists. eexists.
  split; [apply (trace_l Z0 _ n A); auto; now apply reads_of_fmat|].
  split; [apply (trace_l Z0 _ n B); auto; now apply reads_of_fmat|].
  destruct Ha as (A1 & A2 & A3). destruct Hb as (B1 & B2 & B3). split.
  - rewrite (trace_l Z0 _ n (fun i j => add (A i j) (B i j))); auto.
    + now rewrite (sum_add RT).
    + apply reads_of_mexpr; simpl.
      * now rewrite A1, A2, B1, B2, !Nat.eqb_refl.
      * intros i j Hi Hj. now rewrite A3, B3.
  - rewrite (trace_l Z0 _ n (fun i j => mul (A i j) k)); auto.
    + now rewrite (sum_mul_r RT).
    + apply reads_of_mexpr; simpl.
      * now rewrite A1, A2.
      * intros i j Hi Hj. now rewrite A3.
Qed.
Theorem trace_product : forall (T : Type) (Op : Ops T) (a b : rmat T) n p A B bs l k,
  ring_theory zero one add mul sub neg (@eq T) -> reads a n p A -> reads b p n B -> 0 < n -> 0 < p ->
  exists ab ba t, product a b bs l k = Ok ab /\ product b a bs l k = Ok ba /\
    trace (of_fmat ab) = Ok t /\ trace (of_fmat ba) = Ok t.
Proof.
  intros T Op a b n p A B bs l k RT Ha Hb Hn Hp. assert (Z0 := ring_add_0_l RT).
  destruct (product_l Z0 a b n p n A B bs l k Ha Hb Hp) as (ab & E1 & _ & _ & _ & I1).
  destruct (product_l Z0 b a p n p B A bs l k Hb Ha Hn) as (ba & E2 & _ & _ & _ & I2).
  exists ab, ba. eexists. split; auto. split; auto.
  split; [apply (trace_l Z0 _ n _ (reads_of_fmat _ _ _ _ I1) Hn)|].
  rewrite (trace_l Z0 _ p _ (reads_of_fmat _ _ _ _ I2) Hp). f_equal.
  rewrite (sum_swap RT). apply sum_ext. intros i _. apply sum_ext. intros j _. apply (mul_comm_T RT).
Qed.
Example trace_ex : trace (of_fmat (ex22 row_basis row_major MFixed)) = Ok 5%Z /\
  reads (of_fmat (ex23 row_basis row_major MFixed)) 2 3 (els [[1; 2; 3]; [4; 5; 6]]%Z).
Proof. split; [reflexivity|]. apply reads_of_fmat, ex23_is. Qed.
(** The trace of a 0 x 0 matrix reads outside the matrix. *)
Theorem trace_empty_reads_outside : forall (T : Type) (Op : Ops T) (m : fmat T),
  fr m = 0 -> fc m = 0 -> trace (of_fmat m) = UB.
Proof. intros T Op m H1 H2. unfold trace. simpl. rewrite H1, H2. simpl. unfold rd. rewrite H1. reflexivity. Qed.

Print Assumptions layout_addresses. Print Assumptions data_order. Print Assumptions matrix_get_put.
Print Assumptions layout_independent. Print Assumptions storage_view. Print Assumptions matrix_resize_linear.
Print Assumptions matrix_resize_elements_refuted. Print Assumptions matrix_resize_negative.
Print Assumptions matrix_assign. Print Assumptions matrix_compound. Print Assumptions aliased_transpose_refuted.
Print Assumptions matrix_scale_by_outside. Print Assumptions matrix_scale_by_own_element.
Print Assumptions matrix_fill. Print Assumptions transpose_expression. Print Assumptions transpose_in_place.
Print Assumptions transpose_twice. Print Assumptions product_entries. Print Assumptions operands.
Print Assumptions product_associative. Print Assumptions product_distributes. Print Assumptions product_transpose.
Print Assumptions product_identity. Print Assumptions matrix_vector_products.
Print Assumptions product_inner_zero_reads_outside. Print Assumptions matrix_wrong_sizes.
Print Assumptions matrix_wrong_arguments. Print Assumptions row_index_check_refuted.
Print Assumptions matrix_compound_size_error_refuted. Print Assumptions set_row_exact.
Print Assumptions set_col_exact. Print Assumptions row_and_column_views. Print Assumptions read_back.
Print Assumptions basis_vectors. Print Assumptions set_basis_element_exact. Print Assumptions basis_of_transpose.
Print Assumptions matrix_from_list. Print Assumptions matrix_zero_identity. Print Assumptions trace_sum.
Print Assumptions trace_transpose. Print Assumptions trace_linear. Print Assumptions trace_product.
Print Assumptions trace_empty_reads_outside.
