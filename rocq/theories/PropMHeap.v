(** Dynamic matrices in memory: histories of calls, and the value each call leaves.

    [true] is the flag "elements need no destructor" (trivially destructible). *)
From Coq Require Import List ZArith Bool Arith Lia.
From Verif Require Import Base BaseFacts HeapModel HeapSpec Ownership MatModel MatSpec MatOps
  MHeapModel MHeapSpec MHeapFacts MHeapSafe MHeapRefine MHeapValues ZInst.
Import ListNotations.

(** ** C55: histories *)
(** Whatever calls are made, with whatever allocations failing: no call reads or
    writes outside live memory; every existing matrix always is one whole live
    allocation of rows*cols elements, and no allocation is lost or shared.  The
    one undefined outcome left is reading an element never written. *)
Theorem matrix_histories_sound : forall (T : Type) (Op : Ops T) (h : list (mop T)) sch,
  Forall proper h ->
  match m_run true h (m_init sch) with
  | NOk _ s => memory_sound s
  | NThrow _ _ => False
  | NUB u => u = UBIndet
  end.
Proof. intros T Op h sch HF. apply m_run_good; auto. apply m_init_sound. Qed.

(** Destroying the remaining matrices frees every block. *)
Theorem matrix_histories_leak_nothing : forall (T : Type) (Op : Ops T) (h : list (mop T)) sch s,
  Forall proper h -> m_run true h (m_init sch) = NOk tt s ->
  exists s', m_run true (map MDestroy (seq 0 (length (objs (heap s))))) s = NOk tt s' /\
    forall b, get_block (heap s') b = None.
Proof.
  intros T Op h sch s HF E. assert (H := m_run_good h (m_init sch) (m_init_sound sch) HF). rewrite E in H.
  destruct (m_destroy_all (length (objs (heap s))) 0 s H) as [s' [A [B [C D]]]].
  exists s'. split; auto. apply all_freed; [apply B|]. intros o.
  destruct (alive (heap s') o) eqn:Ha; auto. apply m_alive_iff in Ha. exfalso.
  assert (Hx := Ha). apply D in Hx as [[v Hv] Hn].
  assert (o < length (objs (heap s))) by (apply nth_error_Some; congruence). lia.
Qed.

(** A call that throws leaves every matrix as it was. *)
Theorem matrix_throw_changes_nothing : forall (T : Type) (Op : Ops T) (p : mop T) s e s',
  memory_sound s -> proper p -> m_step true p s = NThrow e s' -> memory_sound s' /\ all_kept s s'.
Proof. intros T Op p s e s' Hs Hp E. assert (G := m_step_good s p Hs Hp). rewrite E in G. exact G. Qed.

(** The constructors that take a size and elements allocate before they count the
    elements: on a mismatch they throw, and the block belongs to no object. *)
Theorem matrix_ctor_mismatch_leaks : forall (T : Type) (s : mstate T) l r c es,
  memory_sound s -> alloc_ok s -> r * c <> 0 -> length es <> r * c ->
  (exists s', h_ctor_elements true l (Z.of_nat r) (Z.of_nat c) es s = NThrow EMatrixSize s' /\
     leaked s' /\ all_kept s s') /\
  (exists s', h_ctor_array true l (Z.of_nat r) (Z.of_nat c) es s = NThrow EIncompatibleMatrixSize s' /\
     leaked s' /\ all_kept s s').
Proof.
  intros T s l r c es Hs Ha Hz Hn. split.
  - destruct (ctor_list_l s EMatrixSize l r c es Hs) as [_ H]. destruct (H Hn Hz Ha) as [s' [A [B [C _]]]].
    exists s'. auto.
  - destruct (ctor_list_l s EIncompatibleMatrixSize l r c es Hs) as [_ H]. destruct (H Hn Hz Ha) as [s' [A [B [C _]]]].
    exists s'. auto.
Qed.

(** Two matrices: 0 is [[1 2 3][4 5 6]] row-major, 1 is [[10 20][30 40][50 60]]
    column-major. *)
Definition ex_calls : list (mop Z) :=
  [MElements row_major 2 3 [1; 2; 3; 4; 5; 6]; MArray col_major 3 2 [10; 20; 30; 40; 50; 60]]%Z.
Definition ex_state : mstate Z :=
  match m_run true ex_calls (m_init []) with NOk _ s => s | _ => m_init [] end.
Lemma ex_sound : memory_sound ex_state.
Proof.
  assert (H := m_run_good ex_calls (m_init []) (m_init_sound [])). unfold ex_state.
  assert (HF : Forall proper ex_calls) by (repeat constructor).
  specialize (H HF). destruct (m_run true ex_calls (m_init [])); auto; try tauto. apply m_init_sound.
Qed.
Definition els (rows : list (list Z)) (i j : nat) : Z := nth j (nth i rows []) 0%Z.
Lemma ex_0 : holds ex_state 0 2 3 (els [[1; 2; 3]; [4; 5; 6]]%Z).
Proof. split; [eexists; vm_compute; reflexivity|]. split; [reflexivity|]. split; [reflexivity|].
  intros i j Hi Hj. destruct i as [|[|i]]; [| |lia]; destruct j as [|[|[|j]]]; try lia; reflexivity. Qed.
Lemma ex_1 : holds ex_state 1 3 2 (els [[10; 20]; [30; 40]; [50; 60]]%Z).
Proof. split; [eexists; vm_compute; reflexivity|]. split; [reflexivity|]. split; [reflexivity|].
  intros i j Hi Hj. destruct i as [|[|[|i]]]; [| | |lia]; destruct j as [|[|j]]; try lia; reflexivity. Qed.

Definition ex_history : list (mop Z) := ex_calls ++
  [MTranspose 0; MAssign 0 (HBin Z.add (HObj 0) (HScal Z.mul (HObj 1) 2%Z)); MProduct col_major 0 2;
   MExpr row_major (HTrans (HObj 1)); MProduct row_major 0 2; MMoveAssign 0 3; MResize 1 1 1; MDestroy 2;
   MCompound Z.sub 3 (HObj 3); MSize row_major (-1) 4]%Z.
Example matrix_histories_ex : Forall proper ex_history /\
  match m_run true ex_history (m_init []) with
  | NOk _ s => map (m_alive s) (seq 0 5) = [true; true; false; true; false] /\
               map (fun k => element s 3 k 0) (seq 0 2) = [Some 0%Z; Some 0%Z]
  | _ => False
  end /\
  match m_run true ex_history (m_init [true; true; false]) with NOk _ _ => True | _ => False end.
Proof. split; [repeat constructor; simpl; tauto|]. split; vm_compute; auto. Qed.
Example matrix_throw_ex : exists s', m_step true (MAssign 0 (HBin Z.add (HObj 0) (HObj 1))) ex_state
  = NThrow EIncompatibleMatrixSize s' /\ proper (MAssign 0 (HBin Z.add (HObj 0) (HObj 1))).
Proof. eexists. split; [vm_compute; reflexivity|simpl; tauto]. Qed.
Example matrix_ctor_mismatch_ex : memory_sound ex_state /\ alloc_ok ex_state.
Proof. split; [apply ex_sound|vm_compute; reflexivity]. Qed.

(** A history of ordinary calls after which destroying every matrix leaves a live
    block: matrix(2, 2, 1, 2, 3). *)
Theorem matrix_leaks_nothing_refuted : exists (h : list (mop Z)) s s',
  m_run true h (m_init []) = NOk tt s /\
  m_run true (map MDestroy (seq 0 (length (objs (heap s))))) s = NOk tt s' /\
  exists b cs, get_block (heap s') b = Some cs /\ length cs = 4.
Proof.
  exists [MElements row_major 2 2 [1; 2; 3]]%Z. do 2 eexists. split; [vm_compute; reflexivity|].
  split; [vm_compute; reflexivity|]. exists 0. eexists. split; vm_compute; reflexivity.
Qed.

(** m = transpose(m): the target takes the new shape first, and the operand is the
    target; for a tall row-major or a wide column-major matrix the copy then
    reads past the end of the allocation. *)
Theorem self_transpose_reads_outside : forall (T : Type) (s : mstate T) o r c F,
  memory_sound s -> holds s o r c F -> 0 < r -> 0 < c ->
  match dlay (m_dim s o) with row_major => c < r | col_major => r < c end ->
  h_assign true o (HTrans (HObj o)) s = NUB UBMem.
Proof. exact (@self_transpose_l). Qed.
Definition ex_tall : list (mop Z) := [MElements row_major 3 2 [1; 2; 3; 4; 5; 6]]%Z.
Definition ex_tall_state : mstate Z :=
  match m_run true ex_tall (m_init []) with NOk _ s => s | _ => m_init [] end.
Example self_transpose_ex : memory_sound ex_tall_state /\
  holds ex_tall_state 0 3 2 (els [[1; 2]; [3; 4]; [5; 6]]%Z) /\
  dlay (m_dim ex_tall_state 0) = row_major /\
  m_step true (MAssign 0 (HTrans (HObj 0))) ex_tall_state = NUB UBMem.
Proof.
  split; [|split; [|split; vm_compute; reflexivity]].
  - assert (H := m_run_good ex_tall (m_init []) (m_init_sound [])).
    specialize (H ltac:(repeat constructor)). unfold ex_tall_state.
    destruct (m_run true ex_tall (m_init [])); auto; try tauto. apply m_init_sound.
  - split; [eexists; vm_compute; reflexivity|]. split; [reflexivity|]. split; [reflexivity|].
    intros i j Hi Hj. destruct i as [|[|[|i]]]; [| | |lia]; destruct j as [|[|j]]; try lia; reflexivity.
Qed.

(** ** C56: the value every call leaves *)
(** o = e, where e may mention o itself outside transpose(). *)
Theorem matrix_assignment_in_memory : forall (T : Type) (s : mstate T) o e r c F,
  memory_sound s -> exists_m s o -> denotes s e r c F -> ~ under_transpose o e ->
  or_bad_alloc s (h_assign true o e s) (fun _ s' =>
    holds s' o r c F /\ dlay (m_dim s' o) = dlay (m_dim s o) /\
    (forall o', exists_m s' o' <-> exists_m s o') /\ kept_except [o] s s').
Proof.
  intros T s o e r c F Hs He Hd Hu.
  destruct (assign_l s o e r c F Hs He Hd Hu) as [[s' [A [B [C _]]]]|[s' [A [B C]]]].
  - eapply sched_bad; eauto.
  - right. exists tt, s'. auto.
Qed.
Example matrix_assignment_in_memory_ex :
  let e := HBin Z.add (HScal Z.mul (HObj 0) 2%Z) (HTrans (HObj 1)) in
  denotes ex_state e 2 3 (els [[12; 34; 56]; [28; 50; 72]]%Z) /\ ~ under_transpose 0 e.
Proof.
  split; [split; [|split; [reflexivity|]]|simpl; intuition; discriminate].
  - simpl. intros o [<-|[<-|[]]]; eexists; vm_compute; reflexivity.
  - intros i j Hi Hj. destruct i as [|[|i]]; [| |lia]; destruct j as [|[|[|j]]]; try lia; reflexivity.
Qed.

(** Operands of different size: nothing changes. *)
Theorem matrix_assignment_wrong_size : forall (T : Type) (s : mstate T) op o e,
  memory_sound s -> exists_m s o -> (forall o', In o' (h_objs e) -> exists_m s o') -> h_shape s e = None ->
  h_assign true o e s = NThrow EIncompatibleMatrixSize s /\
  h_compound true op o e s = NThrow EIncompatibleMatrixSize s.
Proof.
  intros T s op o e Hs He Ho Hsh.
  assert (Hb : h_build e s = NThrow EIncompatibleMatrixSize s).
  { destruct (h_build_ok s e Hs Ho) as [[F _]|[_ E]]; auto. exfalso.
    assert (G : forall e, fitting s e -> h_shape s e = Some (hdim s e)).
    { clear. induction e; simpl; intros F; auto.
      - destruct F as [F1 [F2 E]]. rewrite IHe1, IHe2, E by auto. destruct (hdim s e2). now rewrite !Nat.eqb_refl.
      - rewrite IHe by auto. destruct (hdim s e); reflexivity. }
    rewrite G in Hsh by auto. discriminate. }
  unfold h_assign, h_compound. split; apply bindN_throw; auto.
Qed.
Example matrix_assignment_wrong_size_ex : h_shape ex_state (HBin Z.add (HObj 0) (HObj 1)) = None.
Proof. reflexivity. Qed.

(** o += e, o -= e of the right size never allocates. *)
Theorem matrix_compound_in_memory : forall (T : Type) (s : mstate T) op o e r c M F,
  memory_sound s -> holds s o r c M -> denotes s e r c F -> ~ under_transpose o e ->
  exists s', h_compound true op o e s = NOk tt s' /\ memory_sound s' /\
    holds s' o r c (fun i j => op (M i j) (F i j)) /\ dlay (m_dim s' o) = dlay (m_dim s o) /\
    (forall o', exists_m s' o' <-> exists_m s o') /\ kept_except [o] s s'.
Proof. exact (@compound_l). Qed.
Theorem matrix_scale_in_memory : forall (T : Type) (s : mstate T) op o k r c M,
  memory_sound s -> holds s o r c M ->
  exists s', h_scale op o k s = NOk tt s' /\ memory_sound s' /\
    holds s' o r c (fun i j => op (M i j) k) /\ dlay (m_dim s' o) = dlay (m_dim s o) /\
    (forall o', exists_m s' o' <-> exists_m s o') /\ kept_except [o] s s'.
Proof. exact (@scale_l). Qed.
(** zero(), identity(), fill(): the new elements are f(i, j). *)
Theorem matrix_generate_in_memory : forall (T : Type) (s : mstate T) o f,
  memory_sound s -> exists_m s o ->
  exists s', h_generate o f s = NOk tt s' /\ memory_sound s' /\
    holds s' o (drows (m_dim s o)) (dcols (m_dim s o)) f /\ dlay (m_dim s' o) = dlay (m_dim s o) /\
    (forall o', exists_m s' o' <-> exists_m s o') /\ kept_except [o] s s'.
Proof. exact (@generate_l). Qed.
(** o = { ... } and o = array: row order, whatever the layout. *)
Theorem matrix_list_in_memory : forall (T : Type) (s : mstate T) ex o l d,
  memory_sound s -> exists_m s o ->
  (length l = drows (m_dim s o) * dcols (m_dim s o) ->
   exists s', h_assign_list ex o l s = NOk tt s' /\ memory_sound s' /\
     holds s' o (drows (m_dim s o)) (dcols (m_dim s o)) (fun i j => nth (i * dcols (m_dim s o) + j) l d) /\
     dlay (m_dim s' o) = dlay (m_dim s o) /\
     (forall o', exists_m s' o' <-> exists_m s o') /\ kept_except [o] s s') /\
  (length l <> drows (m_dim s o) * dcols (m_dim s o) -> h_assign_list ex o l s = NThrow ex s).
Proof.
  intros T s ex o l d Hs He. split; [apply assign_list_mem; auto|]. intros Hn. unfold h_assign_list.
  rewrite (bindN_ok _ _ s _ s) by (apply get_dim_ok; auto). apply bindN_throw. unfold requireN.
  destruct (Nat.eqb_spec (drows (m_dim s o) * dcols (m_dim s o)) (length l)); congruence.
Qed.

(** Copies and expressions as constructor arguments: a new object, every other
    object untouched. *)
Theorem matrix_construction_in_memory : forall (T : Type) (s : mstate T) l e r c F,
  memory_sound s -> denotes s e r c F ->
  or_bad_alloc s (h_ctor_expr true l e s) (fun o s' =>
    ~ exists_m s o /\ holds s' o r c F /\ dlay (m_dim s' o) = l /\
    (forall o', o' <> o -> exists_m s' o' <-> exists_m s o') /\ all_kept s s').
Proof.
  intros T s l e r c F Hs Hd. destruct (ctor_expr_l s l e r c F Hs Hd) as [[s' [A [B C]]]|[s' [A [B [_ C]]]]].
  - eapply sched_bad; eauto.
  - right. do 2 eexists. split; [exact A|]. split; auto.
Qed.
(** matrix(rows, cols, e0, eN...) and matrix(rows, cols, array) with the right
    number of elements. *)
Theorem matrix_elements_in_memory : forall (T : Type) (s : mstate T) l r c es d,
  memory_sound s -> length es = r * c ->
  let P o s' := ~ exists_m s o /\ holds s' o r c (fun i j => nth (i * c + j) es d) /\
    dlay (m_dim s' o) = l /\ (forall o', o' <> o -> exists_m s' o' <-> exists_m s o') /\ all_kept s s' in
  or_bad_alloc s (h_ctor_elements true l (Z.of_nat r) (Z.of_nat c) es s) P /\
  or_bad_alloc s (h_ctor_array true l (Z.of_nat r) (Z.of_nat c) es s) P.
Proof.
  intros T s l r c es d Hs HL. split.
  - destruct (ctor_list_l s EMatrixSize l r c es Hs) as [H _]. exact (H HL d).
  - destruct (ctor_list_l s EIncompatibleMatrixSize l r c es Hs) as [H _]. exact (H HL d).
Qed.

(** m.transpose() with its heap temporary. *)
Theorem matrix_transpose_in_memory : forall (T : Type) (s : mstate T) o r c F,
  memory_sound s -> holds s o r c F ->
  or_bad_alloc s (h_transpose true o s) (fun _ s' =>
    holds s' o c r (fun i j => F j i) /\ dlay (m_dim s' o) = dlay (m_dim s o) /\
    (forall o', exists_m s' o' <-> exists_m s o') /\ kept_except [o] s s').
Proof. exact (@transpose_l). Qed.

(** The product of two matrices, perhaps the same one, as a new matrix. *)
Theorem matrix_product_in_memory : forall (T : Type) (Op : Ops T) (s : mstate T) l o1 o2 r n c A B,
  (forall x : T, add zero x = x) -> memory_sound s -> holds s o1 r n A -> holds s o2 n c B -> 0 < n ->
  or_bad_alloc s (h_product true l o1 o2 s) (fun o s' =>
    ~ exists_m s o /\ holds s' o r c (fun i j => sum_n n (fun q => mul (A i q) (B q j))) /\
    dlay (m_dim s' o) = l /\ (forall o', o' <> o -> exists_m s' o' <-> exists_m s o') /\ all_kept s s').
Proof. intros T Op s l o1 o2 r n c A B. apply product_mem. Qed.
Example matrix_product_in_memory_ex :
  holds ex_state 0 2 3 (els [[1; 2; 3]; [4; 5; 6]]%Z) /\ holds ex_state 1 3 2 (els [[10; 20]; [30; 40]; [50; 60]]%Z) /\
  match m_step true (MProduct col_major 0 1) ex_state with
  | NOk _ s => [element s 2 0 0; element s 2 0 1; element s 2 1 0; element s 2 1 1] =
               [Some 220; Some 280; Some 490; Some 640]%Z
  | _ => False
  end.
Proof. split; [apply ex_0|]. split; [apply ex_1|]. vm_compute. reflexivity. Qed.

Lemma move_blocks {T} (s s' : mstate T) o1 o2 : h_move_assign o1 o2 s = NOk tt s' ->
  blocks (heap s') = blocks (heap s).
Proof.
  set (kb := fun {A} (m : N T A) => forall s a s', m s = NOk a s' -> blocks (heap s') = blocks (heap s)).
  assert (Hb : forall A B (m : N T A) (f : A -> N T B), kb A m -> (forall a, kb B (f a)) -> kb B (bindN m f)).
  { intros A B m f Hm Hf s1 b s2. unfold bindN. destruct (m s1) as [a s3|e s3|u] eqn:E; try discriminate.
    intros E2. rewrite (Hf _ _ _ _ E2). eapply Hm; eauto. }
  assert (Hg : forall o, kb _ (lift (get_obj o))).
  { intros o s1 a s2. unfold lift, get_obj. destruct (nth_error _ o) as [[v|]|]; try discriminate. intros [= _ <-]. reflexivity. }
  assert (Hp : forall o v, kb _ (lift (set_obj o v))).
  { intros o v s1 a s2. unfold lift, set_obj. destruct (list_put _ o v); try discriminate. intros [= _ <-]. reflexivity. }
  assert (Hd : forall o, kb _ (get_dim o)).
  { intros o s1 a s2. unfold get_dim. destruct (nth_error _ o); try discriminate. intros [= _ <-]. reflexivity. }
  assert (He : forall o r c, kb _ (set_dim o r c)).
  { intros o r c s1 a s2. unfold set_dim. destruct (nth_error _ o); try discriminate.
    destruct (list_put _ o _); try discriminate. intros [= _ <-]. reflexivity. }
  assert (K : kb _ (h_move_assign o1 o2)) by (unfold h_move_assign; repeat (apply Hb; auto; intros ?)).
  intros E. eapply K; eauto.
Qed.

(** Moves take the allocation along: nothing is copied or allocated. *)
Theorem matrix_move_assignment_swaps : forall (T : Type) (s : mstate T) o1 o2 r1 c1 r2 c2 F1 F2,
  memory_sound s -> holds s o1 r1 c1 F1 -> holds s o2 r2 c2 F2 -> dlay (m_dim s o1) = dlay (m_dim s o2) ->
  exists s', h_move_assign o1 o2 s = NOk tt s' /\ memory_sound s' /\
    holds s' o1 r2 c2 F2 /\ holds s' o2 r1 c1 F1 /\ blocks (heap s') = blocks (heap s) /\
    (forall o', exists_m s' o' <-> exists_m s o') /\ kept_except [o1; o2] s s'.
Proof.
  intros T s o1 o2 r1 c1 r2 c2 F1 F2 Hs H1 H2 Hl. assert (X1 : exists_m s o1) by apply H1. assert (X2 : exists_m s o2) by apply H2.
  destruct (h_move_assign_run s o1 o2 Hs X1 X2 Hl) as [s' [E [S1 [L1 [P1 [D1 [D2 [C1 K1]]]]]]]].
  exists s'. split; auto. split; auto. destruct H1 as [_ [A1 [A2 A3]]], H2 as [_ [B1 [B2 B3]]].
  split; [|split; [|split; [|split; auto]]].
  - split; [apply P1; auto|]. rewrite D1. split; auto. split; auto. intros i j Hi Hj. rewrite <- B3 by auto.
    unfold element. rewrite D1. destruct (C1 (index (dlay (m_dim s o2)) (drows (m_dim s o2)) (dcols (m_dim s o2)) i j)) as [-> _].
    reflexivity.
  - split; [apply P1; auto|]. rewrite D2. split; auto. split; auto. intros i j Hi Hj. rewrite <- A3 by auto.
    unfold element. rewrite D2. destruct (C1 (index (dlay (m_dim s o1)) (drows (m_dim s o1)) (dcols (m_dim s o1)) i j)) as [_ ->].
    reflexivity.
  - apply move_blocks in E. exact E.
Qed.

(** The memory model and the model of matrix values (MatModel.v) agree on every
    assignment, including self-assignments through transpose() and changes of
    shape: whenever the value model has a defined outcome, memory shows it. *)
Theorem memory_refines_values : forall (T : Type) (s : mstate T) op o e k,
  memory_sound s -> exists_m s o -> (forall o', In o' (h_objs e) -> exists_m s o') ->
  let agrees (x : out (fmat T)) (y : nres T unit) :=
    match x with
    | Ok m' => or_bad_alloc s y (fun _ s' => same_matrix (matrix_of s' o) m' /\
                 (forall o', exists_m s' o' <-> exists_m s o') /\ kept_except [o] s s')
    | Throw ex => y = NThrow ex s
    | UB => True
    end in
  agrees (m_assign (matrix_of s o) (by_value s o e)) (h_assign true o e s) /\
  agrees (m_compound op (matrix_of s o) (by_value s o e)) (h_compound true op o e s) /\
  agrees (m_scale op (matrix_of s o) (RVal k)) (h_scale op o k s).
Proof.
  intros T s op o e k Hs He Ho.
  assert (G : forall x y, refines_call s o x y ->
    match x with
    | Ok m' => or_bad_alloc s y (fun _ s' => same_matrix (matrix_of s' o) m' /\
                 (forall o', exists_m s' o' <-> exists_m s o') /\ kept_except [o] s s')
    | Throw ex => y = NThrow ex s
    | UB => True
    end).
  { intros [m'|ex|] y R; auto. destruct R as [[s' [A [B [C _]]]]|[s' [A [B [C [D E]]]]]].
    - eapply sched_bad; eauto.
    - right. exists tt, s'. auto 6. }
  cbv zeta. split; [|split]; apply G.
  - apply assign_refines_l; auto.
  - apply compound_refines_l; auto.
  - apply scale_refines_l; auto.
Qed.

(** The hypotheses of the theorems above hold of [ex_state]; what the calls leave
    there. *)
Definition shown (y : nres Z unit) (o : nat) : option (list (list (option Z))) :=
  match y with
  | NOk _ s => Some (map (fun i => map (element s o i) (seq 0 (dcols (m_dim s o)))) (seq 0 (drows (m_dim s o))))
  | _ => None
  end.
Example in_memory_ex :
  memory_sound ex_state /\ holds ex_state 0 2 3 (els [[1; 2; 3]; [4; 5; 6]]%Z) /\
  denotes ex_state (HTrans (HObj 1)) 2 3 (els [[10; 30; 50]; [20; 40; 60]]%Z) /\
  shown (m_step true (MCompound Z.sub 0 (HTrans (HObj 1))) ex_state) 0
    = Some [[Some (-9); Some (-28); Some (-47)]; [Some (-16); Some (-35); Some (-54)]]%Z /\
  shown (m_step true (MScale Z.mul 0 3%Z) ex_state) 0 = Some [[Some 3; Some 6; Some 9]; [Some 12; Some 15; Some 18]]%Z /\
  shown (m_step true (MGenerate 1 (fun i j => Z.of_nat (i + 10 * j))) ex_state) 1
    = Some [[Some 0; Some 10]; [Some 1; Some 11]; [Some 2; Some 12]]%Z /\
  shown (m_step true (MList 1 [1; 2; 3; 4; 5; 6]%Z) ex_state) 1
    = Some [[Some 1; Some 2]; [Some 3; Some 4]; [Some 5; Some 6]]%Z /\
  shown (m_step true (MExpr row_major (HTrans (HObj 1))) ex_state) 2
    = Some [[Some 10; Some 30; Some 50]; [Some 20; Some 40; Some 60]]%Z /\
  shown (m_step true (MTranspose 1) ex_state) 1 = Some [[Some 10; Some 30; Some 50]; [Some 20; Some 40; Some 60]]%Z /\
  m_assign (matrix_of ex_state 0) (by_value ex_state 0 (HObj 1)) <> UB.
Proof.
  split; [apply ex_sound|]. split; [apply ex_0|]. split.
  { split; [simpl; intros o [<-|[]]; eexists; vm_compute; reflexivity|]. split; [reflexivity|].
    intros i j Hi Hj. destruct i as [|[|i]]; [| |lia]; destruct j as [|[|[|j]]]; try lia; reflexivity. }
  repeat split; try (vm_compute; reflexivity). vm_compute. discriminate.
Qed.
Example matrix_move_ex :
  let s := match m_step true (MExpr row_major (HTrans (HObj 0))) ex_state with NOk _ s => s | _ => ex_state end in
  memory_sound s /\ dlay (m_dim s 0) = dlay (m_dim s 2) /\
  shown (m_step true (MMoveAssign 0 2) s) 0 = Some [[Some 1; Some 4]; [Some 2; Some 5]; [Some 3; Some 6]]%Z /\
  shown (m_step true (MMoveAssign 0 2) s) 2 = Some [[Some 1; Some 2; Some 3]; [Some 4; Some 5; Some 6]]%Z.
Proof.
  split; [|repeat split; vm_compute; reflexivity].
  assert (G := m_step_good ex_state (MExpr row_major (HTrans (HObj 0))) ex_sound I).
  destruct (m_step true (MExpr row_major (HTrans (HObj 0))) ex_state); auto; apply ex_sound.
Qed.

Print Assumptions matrix_histories_sound.
Print Assumptions matrix_histories_leak_nothing.
Print Assumptions matrix_throw_changes_nothing.
Print Assumptions matrix_ctor_mismatch_leaks.
Print Assumptions matrix_leaks_nothing_refuted.
Print Assumptions self_transpose_reads_outside.
Print Assumptions matrix_assignment_in_memory.
Print Assumptions matrix_product_in_memory.
Print Assumptions matrix_transpose_in_memory.
Print Assumptions memory_refines_values.
