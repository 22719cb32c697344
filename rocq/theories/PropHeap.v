(** Properties of the container layer: C01, C02, C03 (vectors), C07 (vectors), C08,
    C09, C10, C48, C49, C51, C53.

    [state] is a whole program memory (blocks, vector objects, outcome of coming
    allocations); [value s o] is the list of elements of vector o in s; [den]
    the mathematical value of an expression.  The first argument [true] of assign,
    compound, ... says that the element type is trivially destructible. *)
From Coq Require Import List ZArith Bool Arith Lia.
From Verif Require Import Base BaseFacts HeapModel HeapSpec HeapFacts HeapProofs
  HeapAssign HeapParts HeapAlias Ownership CrossMove.
Import ListNotations.

(** ** A concrete memory used by the examples: vectors 0 and 1 are dynamic with
    elements 1,2,3 and 4,5,6; vectors 2 and 3 are external windows of four cells
    over one array of six, vector 3 starting two cells further. *)
Definition ex_s : state Z := St
  [Live [Some 1; Some 2; Some 3]%Z; Live [Some 4; Some 5; Some 6]%Z;
   Live [Some 10; Some 11; Some 12; Some 13; Some 14; Some 15]%Z]
  [Some (VObj KAllocated (Some (0, 0)) 3); Some (VObj KAllocated (Some (1, 0)) 3);
   Some (VObj KExternal (Some (2, 0)) 4); Some (VObj KExternal (Some (2, 2)) 4)] [].
Definition run_value {A} (r : res Z A) (o : nat) : option (list Z) :=
  match r with ROk _ s => value s o | _ => None end.

Ltac own :=
  eexists; split; [reflexivity|]; split; [reflexivity|]; split; [reflexivity|];
  eexists; split; reflexivity.
Ltac heap_solve :=
  match goal with
  | |- forall o', In o' _ -> _ =>
      let H := fresh in intros ? H; simpl in H;
      repeat (destruct H as [<-|H]); try contradiction
  end.

(** ** C01: elementwise expressions may mention their target *)
Theorem elementwise_assign : forall (T : Type) (s : state T) (o : nat) (e : vexpr T) (l : list T),
  elementwise e -> den (value s) e = Some l ->
  (size_of s o = length l /\ mapped s o) \/
  (owns_block s o /\ alloc_succeeds s /\
   forall o', In o' (e_objs e) -> o' <> o /\ ~ overlap s o' o) ->
  (forall o', In o' (e_objs e) -> ~ overlaps_from_below s o' o) ->
  exists s', assign true o e s = ROk tt s' /\ value s' o = Some l /\ frame s s' o.
Proof. exact (@assign_elementwise_l). Qed.

Theorem elementwise_compound : forall (T : Type) (s : state T) (f : T -> T -> T) (o : nat)
    (e : vexpr T) (l : list T),
  elementwise e -> den (value s) (EBin f (EObj o) e) = Some l ->
  (forall o', In o' (e_objs e) -> ~ overlaps_from_below s o' o) ->
  exists s', compound true f o e s = ROk tt s' /\ value s' o = Some l /\ others_kept s s' o.
Proof. exact (@compound_l). Qed.

(** v0 = v0*2 + v1 - v0 *)
Definition ex_e : vexpr Z :=
  EBin Z.sub (EBin Z.add (EScal Z.mul (EObj 0) 2%Z) (EObj 1)) (EObj 0).
Lemma no_below_self (s : state Z) o : ~ overlaps_from_below s o o.
Proof.
  intros [_ (v1 & v2 & b & f1 & f2 & A & B & C & D & E)].
  rewrite A in B. injection B as <-. assert (f1 = f2) by congruence. lia.
Qed.
Lemma disjoint_01 : ~ overlap ex_s 1 0 /\ ~ overlap ex_s 0 1.
Proof.
  split; intros (b & i & (v & f & A & B & _) & (v' & f' & A' & B' & _));
  simpl in *; injection A as <-; injection A' as <-; simpl in *; congruence.
Qed.
Example elementwise_assign_ex : exists s', assign true 0 ex_e ex_s = ROk tt s' /\
  value s' 0 = Some [5; 7; 9]%Z /\ frame ex_s s' 0.
Proof.
  apply elementwise_assign.
  - simpl; tauto.
  - reflexivity.
  - left. split; [reflexivity|]. eapply mapped_of_value. reflexivity.
  - heap_solve; try apply no_below_self; intros [H _]; apply (proj1 disjoint_01 H).
Qed.

(** ** C02: other expressions need a target outside the expression *)
Theorem disjoint_assign : forall (T : Type) (s : state T) (o : nat) (e : vexpr T) (l : list T),
  den (value s) e = Some l ->
  (size_of s o = length l /\ mapped s o) \/ (owns_block s o /\ alloc_succeeds s) ->
  (forall o', In o' (e_objs e) -> o' <> o /\ ~ overlap s o' o) ->
  exists s', assign true o e s = ROk tt s' /\ value s' o = Some l /\ frame s s' o.
Proof. exact (@assign_disjoint_l). Qed.

(** v2 = cross(v0, v1) where v2 is a fresh dynamic vector of another size *)
Definition ex_s2 : state Z := St (blocks ex_s)
  (objs ex_s ++ [Some (VObj KAllocated None 0)]) [].
Example disjoint_assign_ex : exists s',
  assign true 4 (ECross Z.mul Z.sub (EObj 0) (ESub (EBin Z.add (EObj 2) (EObj 2)) 1)) ex_s2 = ROk tt s' /\
  value s' 4 = Some [2*26-3*24; 3*20-1*26; 1*24-2*20]%Z /\ frame ex_s2 s' 4.
Proof.
  apply disjoint_assign.
  - reflexivity.
  - right. split; [|reflexivity]. eexists. split; [reflexivity|]. split; reflexivity.
  - heap_solve; (split; [lia|]); intros (b & i & _ & (v' & f' & A' & B' & _));
    simpl in A'; injection A' as <-; discriminate.
Qed.

(** With the target among the operands, cross() overwrites its operand: the exact
    result. *)
Theorem cross_into_operand : forall (T : Type) (s : state T) (m d : T -> T -> T) (o o' : nat)
    (v v' : vobj) (b off b' off' : nat) (a0 a1 a2 c0 c1 c2 : T),
  nth_error (objs s) o = Some (Some v) -> nth_error (objs s) o' = Some (Some v') ->
  oaddr v = Some (b, off) -> oaddr v' = Some (b', off') -> b <> b' ->
  value s o = Some [a0; a1; a2] -> value s o' = Some [c0; c1; c2] ->
  let r0 := d (m a1 c2) (m a2 c1) in
  let r1 := d (m a2 c0) (m r0 c2) in
  let r2 := d (m r0 c1) (m r1 c0) in
  exists s', assign true o (ECross m d (EObj o) (EObj o')) s = ROk tt s' /\
    value s' o = Some [r0; r1; r2].
Proof. exact (@cross_self_l). Qed.

(** The statement of C01 for every expression, elementwise or not, is false: for
    v = cross(v, w) and for v = subvector(v, 0). *)
Theorem aliased_cross_refuted : exists (s : state Z) (o : nat) (e : vexpr Z) (l : list Z) (s' : state Z),
  den (value s) e = Some l /\ size_of s o = length l /\ sound (St (firstn 2 (blocks s)) (firstn 2 (objs s)) []) /\
  assign true o e s = ROk tt s' /\ value s' o <> Some l.
Proof.
  exists ex_s, 0, (ECross Z.mul Z.sub (EObj 0) (EObj 1)), [-3; 6; -3]%Z.
  eexists. split; [reflexivity|]. split; [reflexivity|]. split.
  - split; [|split].
    + intros [|[|[|o]]] v H; simpl in H; try discriminate; try (destruct o; discriminate);
      injection H as <-; (eexists; split; [reflexivity|]); (split; [reflexivity|]);
      (split; [reflexivity|]); eexists; split; reflexivity.
    + intros [|[|[|o1]]] [|[|[|o2]]] v1 v2 b f1 f2 H1 H2; simpl in *; try discriminate; auto;
      try (destruct o1; discriminate); try (destruct o2; discriminate);
      injection H1 as <-; injection H2 as <-; simpl; congruence.
    + intros [|[|[|b]]] cs H; try discriminate.
      * exists 0. do 2 eexists. split; reflexivity.
      * exists 1. do 2 eexists. split; reflexivity.
  - split; [vm_compute; reflexivity|]. vm_compute. discriminate.
Qed.
Theorem aliased_subvector_refuted : exists (s : state Z) (o : nat) (e : vexpr Z) (l : list Z),
  den (value s) e = Some l /\ owns_block s o /\ alloc_succeeds s /\
  assign true o e s = RUB UBMem.
Proof.
  exists ex_s, 0, (ESub (EObj 0) 0), [2; 3]%Z. split; [reflexivity|]. split.
  - own.
  - split; reflexivity.
Qed.

(** ** C03: scaling a vector in place *)
Theorem scale_by_outside : forall (T : Type) (s : state T) (f : T -> T -> T) (o : nat) (r : sref T)
    (l : list T) (c : T),
  value s o = Some l -> ref_value s r = Some c -> ~ ref_inside s r o ->
  exists s', scale f o r s = ROk tt s' /\ value s' o = Some (map (fun x => f x c) l) /\
    others_kept s s' o.
Proof. exact (@scale_outside_l). Qed.
Theorem scale_by_own_element : forall (T : Type) (s : state T) (f : T -> T -> T) (o : nat)
    (l : list T) (j : nat) (c : T) (v : vobj) (b off : nat),
  value s o = Some l -> nth_error (objs s) o = Some (Some v) -> oaddr v = Some (b, off) ->
  nth_error l j = Some c ->
  exists s', scale f o (SCell b (off + j)) s = ROk tt s' /\
    value s' o = Some (self_scaled f l j c) /\ others_kept s s' o.
Proof. exact (@scale_inside_l). Qed.
Example scale_ex : run_value (scale Z.mul 0 (SCell 0 0) ex_s) 0 = Some [1; 2; 3]%Z /\
  run_value (scale Z.mul 0 (SCell 0 1) ex_s) 0 = Some [2; 4; 12]%Z /\
  self_scaled Z.mul [1; 2; 3]%Z 1 2%Z = [2; 4; 12]%Z.
Proof. repeat split. Qed.

(** ** C07: a failed size check throws and changes nothing *)
Theorem wrong_sizes_throw : forall (T : Type) (s : state T) (o : nat) (e : vexpr T) (v : vobj) (triv : bool),
  (forall o', In o' (e_objs e) -> exists v', nth_error (objs s) o' = Some (Some v')) ->
  nth_error (objs s) o = Some (Some v) ->
  (shape_of (fun o' => Z.of_nat (size_of s o')) e = None \/
   (exists n, okind v <> KAllocated /\
      shape_of (fun o' => Z.of_nat (size_of s o')) e = Some n /\ n <> Z.of_nat (olen v))) ->
  exists ex, (ex = EIncompatibleVectorSize \/ ex = EVectorSize) /\
    assign triv o e s = RThrow ex s /\ forall f, compound triv f o e s = RThrow ex s.
Proof.
  intros T s o e v tr Ha Hv H. apply assign_throws_l; eauto.
  - apply all_alive_iff. auto.
  - destruct H as [H|(n & A & B & C)]; [left|right; exists v, n]; auto.
Qed.
Example wrong_sizes_throw_ex :
  shape_of (fun o' => Z.of_nat (size_of ex_s o')) (EBin Z.add (EObj 0) (EObj 2)) = None /\
  shape_of (fun o' => Z.of_nat (size_of ex_s o')) (@EObj Z 0) = Some 3%Z /\
  assign true 2 (EObj 0) ex_s = RThrow EIncompatibleVectorSize ex_s.
Proof. repeat split. Qed.
Theorem minmax_wrong_size_throws : forall (T : Type) (s : state T) (f : T -> T -> T) (o : nat)
    (e : vexpr T) (v : vobj) (n : Z),
  nth_error (objs s) o = Some (Some v) -> e_build e s = ROk tt s -> e_size e s = ROk n s ->
  n <> Z.of_nat (olen v) -> pairwise f o e s = RThrow EIncompatibleVectorSize s.
Proof. exact (@pairwise_throws_l). Qed.
Example minmax_wrong_size_ex : pairwise Z.min 0 (EObj 2) ex_s = RThrow EIncompatibleVectorSize ex_s.
Proof. reflexivity. Qed.

(** ** C08: resize *)
Theorem resize_keeps_prefix : forall (T : Type) (s : state T) (o n : nat) (cs : list (cell T)),
  owns_block s o -> alloc_succeeds s -> contents s o = Some cs ->
  exists s', resize true o (Z.of_nat n) s = ROk tt s' /\
    contents s' o = Some (firstn n cs ++ repeat None (n - length cs)) /\
    owns_block s' o /\ frame s s' o.
Proof. exact (@resize_l). Qed.
Theorem resize_negative : forall (T : Type) (s : state T) (o : nat) (n : Z) (triv : bool),
  (n < 0)%Z -> resize triv o n s = RThrow EInvalidArgument s.
Proof. intros; apply resize_neg; auto. Qed.
Theorem resize_no_memory : forall (T : Type) (s : state T) (o n : nat) (v : vobj) (r : list bool),
  nth_error (objs s) o = Some (Some v) -> n <> olen v -> sched s = false :: r -> forall triv,
  resize triv o (Z.of_nat n) s = RThrow EBadAlloc (St (blocks s) (objs s) r).
Proof. exact (@resize_nomem_l). Qed.
Example resize_ex :
  (exists s', resize true 0 2 ex_s = ROk tt s' /\ contents s' 0 = Some [Some 1; Some 2]%Z) /\
  (exists s', resize true 0 4 ex_s = ROk tt s' /\ contents s' 0 = Some [Some 1; Some 2; Some 3; None]%Z).
Proof. split; eexists; split; vm_compute; reflexivity. Qed.
(** For element types with a non-trivial destructor the documented "keeps the
    first elements" fails: the old elements are destroyed before they are copied. *)
Theorem resize_nontrivial_refuted : exists (s : state Z) (o : nat) (n : nat) (cs : list (cell Z)) (s' : state Z),
  owns_block s o /\ alloc_succeeds s /\ contents s o = Some cs /\ n = length cs + 1 /\
  resize false o (Z.of_nat n) s = ROk tt s' /\ contents s' o = Some (repeat None n).
Proof.
  exists ex_s, 0, 4, [Some 1; Some 2; Some 3]%Z. eexists. split.
  - own.
  - repeat split; vm_compute; reflexivity.
Qed.

(** ** C09: += of different sizes.  Fixed-size and external vectors throw
    ([wrong_sizes_throw]); dynamic vectors, although documented to throw, do not. *)
Theorem compound_longer_reads_garbage : forall (T : Type) (s : state T) (f : T -> T -> T) (o : nat)
    (e : vexpr T) (l2 : list T),
  owns_block s o -> alloc_succeeds s -> den (value s) e = Some l2 ->
  (forall o', In o' (e_objs e) -> o' <> o /\ ~ overlap s o' o) ->
  (exists l1, value s o = Some l1 /\ length l1 < length l2) ->
  compound true f o e s = RUB UBIndet.
Proof. exact (@compound_longer_l). Qed.
Theorem compound_shorter_truncates : forall (T : Type) (s : state T) (f : T -> T -> T) (o : nat)
    (e : vexpr T) (l1 l2 l : list T),
  elementwise e -> owns_block s o -> alloc_succeeds s ->
  value s o = Some l1 -> den (value s) e = Some l2 -> length l2 <= length l1 ->
  zip_with f (firstn (length l2) l1) l2 = Some l ->
  (forall o', In o' (e_objs e) -> o' <> o /\ ~ overlap s o' o) ->
  exists s', compound true f o e s = ROk tt s' /\ value s' o = Some l.
Proof. exact (@compound_shorter_l). Qed.
Theorem compound_size_error_refuted : exists (s : state Z) (o o' : nat) (s' : state Z),
  owns_block s o /\ size_of s o' < size_of s o /\
  compound true Z.add o (EObj o') s = ROk tt s' /\ size_of s' o = size_of s o'.
Proof.
  exists (St [Live [Some 1; Some 2; Some 3]%Z; Live [Some 4; Some 5]%Z]
   [Some (VObj KAllocated (Some (0, 0)) 3); Some (VObj KAllocated (Some (1, 0)) 2)] []), 0, 1.
  eexists. split; [own|].
  split; [vm_compute; lia|]. split; vm_compute; reflexivity.
Qed.
Example compound_longer_ex : compound true Z.add 0 (EObj 2) ex_s = RUB UBIndet.
Proof. reflexivity. Qed.

(** ** C10: ownership of memory under every history of calls *)
Theorem histories_sound : forall (T : Type) (h : list (op T)) (sch : list bool),
  Forall no_self_sub h ->
  match run true h (init sch) with
  | ROk _ s => sound s
  | RThrow _ _ => False
  | RUB u => u = UBIndet
  end.
Proof. intros. apply run_sound; auto using sound_init. Qed.
Theorem histories_leak_nothing : forall (T : Type) (h : list (op T)) (sch : list bool) (s : state T),
  Forall no_self_sub h -> run true h (init sch) = ROk tt s ->
  exists s', run true (map OpDestroy (seq 0 (length (objs s)))) s = ROk tt s' /\
    forall b, get_block s' b = None.
Proof. exact (@no_leak_l). Qed.
(** a history with a failing allocation, a failing size check, moves and copies *)
Definition ex_h : list (op Z) :=
  [OpList [1; 2; 3]%Z; OpSize 5; OpExpr (EObj 0); OpMoveCtor 0; OpAssign 1 (EBin Z.add (EObj 1) (EObj 2));
   OpResize 2 7; OpCompound Z.add 2 (EObj 2); OpMoveAssign 1 1; OpDestroy 2; OpResize 1 (-4)].
Example histories_ex : Forall no_self_sub ex_h /\
  (exists s, run true (firstn 4 ex_h) (init [true; true; false]) = ROk tt s /\ length (objs s) = 3) /\
  (exists s, run true (firstn 4 ex_h) (init []) = ROk tt s /\ length (objs s) = 4).
Proof.
  split; [|split]; [|eexists; split; vm_compute; reflexivity..].
  repeat constructor; simpl; tauto.
Qed.
(** Without the side condition memory safety fails: v = subvector(v, 0). *)
Theorem histories_self_sub_refuted : exists h : list (op Z), run true h (init []) = RUB UBMem.
Proof. exists [OpList [1; 2; 3]%Z; OpAssign 0 (ESub (EObj 0) 0)]. reflexivity. Qed.

(** ** C48: construction from parts *)
Theorem assign_element_list : forall (T : Type) (s : state T) (o : nat) (rs : list (sref T)) (xs : list T),
  (size_of s o = length rs /\ mapped s o) \/ (owns_block s o /\ alloc_succeeds s) ->
  Forall2 (fun r x => ref_value s r = Some x /\ ~ ref_inside s r o) rs xs ->
  exists s', assign_elements true o rs s = ROk tt s' /\ value s' o = Some xs /\ frame s s' o.
Proof. exact (@assign_elements_l). Qed.
Theorem assign_sub_and_elements : forall (T : Type) (s : state T) (o : nat) (e : vexpr T)
    (rs : list (sref T)) (l xs : list T),
  den (value s) e = Some l ->
  (size_of s o = length l + length rs /\ mapped s o) \/ (owns_block s o /\ alloc_succeeds s) ->
  (forall o', In o' (e_objs e) -> o' <> o /\ ~ overlap s o' o) ->
  Forall2 (fun r x => ref_value s r = Some x /\ ~ ref_inside s r o) rs xs ->
  exists s', assign_parts true o e rs s = ROk tt s' /\ value s' o = Some (l ++ xs) /\ frame s s' o.
Proof. exact (@assign_parts_l). Qed.
Example parts_ex : run_value (assign_parts true 0 (EObj 1) [SVal 7%Z; SCell 2 3] ex_s) 0
  = Some [4; 5; 6; 7; 13]%Z.
Proof. reflexivity. Qed.
(** A fixed-size target of another size throws. *)
Theorem parts_wrong_size : forall (T : Type) (s : state T) (o : nat) (rs : list (sref T)) (v : vobj) (triv : bool),
  nth_error (objs s) o = Some (Some v) -> okind v <> KAllocated -> olen v <> length rs ->
  assign_elements triv o rs s = RThrow EVectorSize s.
Proof.
  intros T s o rs v tr Hv Hk Hl. unfold assign_elements. apply bindM_throw.
  unfold check_or_resize. rewrite (bindM_ok _ _ _ v s) by (apply get_obj_ok; auto).
  destruct (okind v); try congruence; simpl;
  (destruct (Z.eqb_spec (Z.of_nat (olen v)) (Z.of_nat (length rs))); [lia|reflexivity]).
Qed.
Example parts_wrong_size_ex : assign_elements true 2 [SVal 1%Z] ex_s = RThrow EVectorSize ex_s.
Proof. reflexivity. Qed.
(** Elements of the target itself may not be listed after they were overwritten. *)
Theorem set_own_elements_refuted : exists (s : state Z) (o : nat) (rs : list (sref Z)) (xs : list Z) (s' : state Z),
  size_of s o = length rs /\ mapped s o /\ Forall2 (fun r x => ref_value s r = Some x) rs xs /\
  assign_elements true o rs s = ROk tt s' /\ value s' o <> Some xs.
Proof.
  exists ex_s, 0, [SCell 0 1; SCell 0 0; SCell 0 2], [2; 1; 3]%Z. eexists.
  split; [reflexivity|]. split; [eapply mapped_of_value; reflexivity|].
  split; [repeat constructor|]. split; [reflexivity|]. vm_compute. discriminate.
Qed.

(** ** C49: minimize, maximize, fill, zero, cardinal *)
Theorem minmax_elementwise : forall (T : Type) (s : state T) (f : T -> T -> T) (o : nat) (e : vexpr T) (l : list T),
  elementwise e -> den (value s) (EBin f (EObj o) e) = Some l ->
  (forall o', In o' (e_objs e) -> ~ overlaps_from_below s o' o) ->
  exists s', pairwise f o e s = ROk tt s' /\ value s' o = Some l /\ others_kept s s' o.
Proof. exact (@pairwise_l). Qed.
Theorem fill_all : forall (T : Type) (s : state T) (o : nat) (r : sref T) (n : nat) (c : T),
  mapped s o -> size_of s o = n -> ref_value s r = Some c ->
  exists s', fill o r s = ROk tt s' /\ value s' o = Some (repeat c n) /\ others_kept s s' o.
Proof. exact (@fill_l). Qed.
Theorem cardinal_unit : forall (T : Type) (s : state T) (z u : T) (o i n : nat),
  mapped s o -> size_of s o = n -> i < n ->
  exists s', cardinal z u o i s = ROk tt s' /\
    value s' o = Some (replace_nth (repeat z n) i u) /\ others_kept s s' o.
Proof. exact (@cardinal_l). Qed.
Example minmax_ex : run_value (pairwise Z.min 0 (EUn Z.opp (EObj 1)) ex_s) 0 = Some [-4; -5; -6]%Z /\
  run_value (fill 0 (SCell 0 1) ex_s) 0 = Some [2; 2; 2]%Z /\
  run_value (cardinal 0%Z 1%Z 0 1 ex_s) 0 = Some [0; 1; 0]%Z.
Proof. repeat split. Qed.

(** ** C51: external vectors.  Write-through and disjoint copies are
    [elementwise_assign]/[disjoint_assign] (they hold for every storage kind);
    overlapping windows copy forward. *)
Theorem write_through : forall (T : Type) (s : state T) (o : nat) (e : vexpr T) (l : list T),
  elementwise e -> den (value s) e = Some l -> size_of s o = length l -> mapped s o ->
  (forall o', In o' (e_objs e) -> ~ overlaps_from_below s o' o) ->
  exists s', assign true o e s = ROk tt s' /\ value s' o = Some l /\ objs s' = objs s /\
    forall b i, ~ in_window s o b i -> cellat s' b i = cellat s b i.
Proof. exact (@write_through_l). Qed.
Theorem external_put : forall (T : Type) (s : state T) (o : nat) (l : list T) (i : nat) (x : T),
  value s o = Some l -> i < length l ->
  exists s', obj_put o i x s = ROk tt s' /\ value s' o = Some (replace_nth l i x) /\
    same_shape s s' /\ others_kept s s' o.
Proof. exact (@put_l). Qed.
Theorem overlapping_copy_repeats : forall (T : Type) (s : state T) (o o' : nat) (v v' : vobj)
    (b off d : nat) (l : list T) (dflt : T),
  nth_error (objs s) o = Some (Some v) -> nth_error (objs s) o' = Some (Some v') ->
  oaddr v' = Some (b, off) -> oaddr v = Some (b, off + d) -> 0 < d -> d <= length l ->
  value s o' = Some l -> olen v = length l -> mapped s o ->
  exists s', assign true o (EObj o') s = ROk tt s' /\
    value s' o = Some (map (fun i => nth (i mod d) l dflt) (seq 0 (length l))).
Proof. exact (@copy_overlap_l). Qed.
Example overlapping_copy_ex :
  run_value (assign true 3 (EObj 2) ex_s) 3 = Some [10; 11; 10; 11]%Z /\
  run_value (assign true 2 (EObj 3) ex_s) 2 = Some [12; 13; 14; 15]%Z.
Proof. split; reflexivity. Qed.

(** ** C53: temporaries as operands *)
Theorem binary_from_temporaries : forall (T : Type) (a b : operand T),
  length (op_elems a) = length (op_elems b) -> binary_construct_rvalue a b = Ok (a, b).
Proof. exact (@binary_temps_l). Qed.
Theorem cross_from_named : forall (T : Type) (a b : operand T), not_dyn a -> not_dyn b ->
  (length (op_elems a) = 3 /\ length (op_elems b) = 3 -> cross_construct_rvalue a b = Ok (a, b)) /\
  (length (op_elems a) <> 3 \/ length (op_elems b) <> 3 ->
   cross_construct_rvalue a b = Throw EVectorSize).
Proof. exact (@cross_lvalues_l). Qed.
Theorem cross_from_dynamic_temporary_throws : forall (T : Type) (l : list T) (b : operand T),
  length (op_elems b) = 3 -> not_dyn b ->
  cross_construct_rvalue (ODynTemp l) b = Throw EVectorSize /\
  cross_construct_rvalue b (ODynTemp l) = Throw EVectorSize.
Proof. intros; split; [apply cross_dyn_temp_l | apply cross_dyn_temp_r; auto]. Qed.
Theorem cross_from_temporaries_refuted : exists a b : operand Z,
  length (op_elems a) = 3 /\ length (op_elems b) = 3 /\ cross_construct_rvalue a b = Throw EVectorSize.
Proof. exists (ODynTemp [1;2;3]%Z), (OLvalue [4;5;6]%Z). repeat split. Qed.

Print Assumptions elementwise_assign.
Print Assumptions elementwise_compound.
Print Assumptions disjoint_assign.
Print Assumptions cross_into_operand.
Print Assumptions aliased_cross_refuted.
Print Assumptions aliased_subvector_refuted.
Print Assumptions scale_by_outside.
Print Assumptions scale_by_own_element.
Print Assumptions wrong_sizes_throw.
Print Assumptions minmax_wrong_size_throws.
Print Assumptions resize_keeps_prefix.
Print Assumptions resize_negative.
Print Assumptions resize_no_memory.
Print Assumptions resize_nontrivial_refuted.
Print Assumptions compound_longer_reads_garbage.
Print Assumptions compound_shorter_truncates.
Print Assumptions compound_size_error_refuted.
Print Assumptions histories_sound.
Print Assumptions histories_leak_nothing.
Print Assumptions histories_self_sub_refuted.
Print Assumptions assign_element_list.
Print Assumptions assign_sub_and_elements.
Print Assumptions parts_wrong_size.
Print Assumptions set_own_elements_refuted.
Print Assumptions minmax_elementwise.
Print Assumptions fill_all.
Print Assumptions cardinal_unit.
Print Assumptions write_through.
Print Assumptions external_put.
Print Assumptions overlapping_copy_repeats.
Print Assumptions binary_from_temporaries.
Print Assumptions cross_from_named.
Print Assumptions cross_from_dynamic_temporary_throws.
Print Assumptions cross_from_temporaries_refuted.
