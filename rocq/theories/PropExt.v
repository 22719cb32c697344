(** C51 (and C48): external vectors as views of memory they do not own. *)
From Coq Require Import List ZArith Bool Arith Lia.
From Verif Require Import Base BaseFacts HeapModel HeapSpec HeapFacts HeapProofs HeapAssign HeapParts HeapAlias ExtModel.
Import ListNotations.

Section Views.
Context {T : Type}.
Notation state := (state T).

(** Memory and the other vectors are as before. *)
Definition memory_kept (s s' : state) : Prop := blocks s' = blocks s /\ sched s' = sched s.
Definition objects_kept (s s' : state) (touched : nat -> Prop) : Prop :=
  forall o, o < length (objs s) -> ~ touched o -> nth_error (objs s') o = nth_error (objs s) o /\ value s' o = value s o.
(** Two vectors are the same elements in memory. *)
Definition same_view (s : state) (o1 o2 : nat) : Prop :=
  exists v1 v2, nth_error (objs s) o1 = Some (Some v1) /\ nth_error (objs s) o2 = Some (Some v2) /\
    oaddr v1 = oaddr v2 /\ olen v1 = olen v2.
End Views.

Lemma window_blocks {T} (s s' : state T) b off n : blocks s' = blocks s -> read_window s' b off n = read_window s b off n.
Proof. intros E. apply read_window_ext. intros i _. unfold cellat. rewrite (blocks_get_block _ _ _ E). auto. Qed.
Lemma value_view {T} (s s' : state T) o o' v v' : blocks s' = blocks s -> nth_error (objs s) o = Some (Some v) -> nth_error (objs s') o' = Some (Some v') ->
  oaddr v' = oaddr v -> olen v' = olen v -> value s' o' = value s o.
Proof. intros E A B C D. unfold value. rewrite A, B, C, D. destruct (oaddr v) as [[b off]|]; auto. apply window_blocks; auto. Qed.
Lemma value_same {T} (s s' : state T) o : blocks s' = blocks s -> nth_error (objs s') o = nth_error (objs s) o -> value s' o = value s o.
Proof. intros E A. unfold value. rewrite A. destruct (nth_error (objs s) o) as [[v|]|]; auto. destruct (oaddr v) as [[b off]|]; auto. apply window_blocks; auto. Qed.
Lemma new_obj_run {T} (s : state T) v : exists s', new_obj v s = ROk (length (objs s)) s' /\ memory_kept s s' /\ length (objs s') = S (length (objs s)) /\
  nth_error (objs s') (length (objs s)) = Some (Some v) /\ forall o, o < length (objs s) -> nth_error (objs s') o = nth_error (objs s) o.
Proof.
  eexists. split; [reflexivity|]. cbn. split; [split; reflexivity|]. split; [rewrite app_length; cbn; lia|]. split.
  - rewrite nth_error_app2, Nat.sub_diag by lia. auto.
  - intros o H. apply nth_error_app1; auto.
Qed.
Lemma alive_lt {T} (s : state T) o v : nth_error (objs s) o = Some (Some v) -> o < length (objs s).
Proof. intros H. apply nth_error_Some. congruence. Qed.

(** ** Construction *)
(** vector(data, n): the n values at data *)
Theorem external_construct : forall (T : Type) (s : state T) b off n l, read_window s b off n = Some l ->
  exists s', ext_new (Some (b, off)) (Z.of_nat n) s = ROk (length (objs s)) s' /\ value s' (length (objs s)) = Some l /\
    memory_kept s s' /\ objects_kept s s' (fun _ => False).
Proof.
  intros T s b off n l H. unfold ext_new. destruct (Z.leb_spec 0 (Z.of_nat n)); [|lia]. cbn [requireM]. rewrite (bindM_ok _ _ _ tt s) by reflexivity.
  rewrite Nat2Z.id. destruct (new_obj_run s (VObj KExternal (Some (b, off)) n)) as (s' & E & K & _ & N & F). exists s'. split; auto. split.
  - unfold value. rewrite N. cbn [oaddr olen]. rewrite (window_blocks s s') by apply K. auto.
  - split; auto. intros o L _. split; auto. apply value_same; auto. apply K.
Qed.
Theorem external_negative_size : forall (T : Type) (s : state T) p n, (n < 0)%Z -> ext_new p n s = RThrow EInvalidArgument s.
Proof. intros T s p n H. unfold ext_new. destruct (Z.leb_spec 0 n); [lia|]. reflexivity. Qed.
(** A copy is another view of the same elements: what is written through one is read
    through the other. *)
Theorem external_copy_shares : forall (T : Type) (s : state T) o l, value s o = Some l ->
  exists s', ext_copy_ctor o s = ROk (length (objs s)) s' /\ value s' (length (objs s)) = Some l /\ same_view s' o (length (objs s)) /\
    memory_kept s s' /\ objects_kept s s' (fun _ => False).
Proof.
  intros T s o l H. unfold ext_copy_ctor. destruct (value_inv _ _ _ H) as (v & A & _). rewrite (bindM_ok _ _ _ v s) by (apply get_obj_ok; auto).
  destruct (new_obj_run s (VObj KExternal (oaddr v) (olen v))) as (s' & E & K & _ & N & F). exists s'. split; auto.
  assert (L := alive_lt _ _ _ A). split; [rewrite <- H; eapply value_view; eauto; apply K|]. split.
  - exists v. eexists. rewrite F by auto. split; [auto|]. split; [eauto|]. split; reflexivity.
  - split; auto. intros x Lx _. split; auto. apply value_same; auto. apply K.
Qed.
Theorem same_view_reads_writes : forall (T : Type) (s : state T) o1 o2 l i x, same_view s o1 o2 -> value s o1 = Some l -> i < length l ->
  exists s', obj_put o1 i x s = ROk tt s' /\ value s' o1 = Some (replace_nth l i x) /\ value s' o2 = Some (replace_nth l i x).
Proof.
  intros T s o1 o2 l i x (v1 & v2 & A & B & C & D) H I. destruct (put_l s o1 l i x H I) as (s' & E & V & Sh & _). exists s'. split; auto. split; auto.
  rewrite <- V. destruct Sh as [Ho _]. eapply (value_view s' s' o1 o2 v1 v2); auto; rewrite Ho; auto.
Qed.
(** A move hands the view over; the moved-from vector is empty. *)
Theorem external_move_construct : forall (T : Type) (s : state T) o l, value s o = Some l ->
  exists s', ext_move_ctor o s = ROk (length (objs s)) s' /\ value s' (length (objs s)) = Some l /\ value s' o = Some [] /\
    memory_kept s s' /\ objects_kept s s' (fun o' => o' = o).
Proof.
  intros T s o l H. unfold ext_move_ctor. destruct (value_inv _ _ _ H) as (v & A & _). rewrite (bindM_ok _ _ _ v s) by (apply get_obj_ok; auto).
  destruct (new_obj_run s (VObj KExternal (oaddr v) (olen v))) as (s1 & E & K & Ln & N & F). rewrite (bindM_ok _ _ _ _ _ E).
  assert (L := alive_lt _ _ _ A). destruct (set_obj_ok s1 o (Some (VObj (okind v) None 0))) as (s' & E' & B' & S' & _ & G); [lia|].
  rewrite (bindM_ok _ _ _ _ _ E'). exists s'. split; [reflexivity|]. assert (KK : blocks s' = blocks s) by (rewrite B'; apply K).
  split; [|split; [|split]].
  - rewrite <- H. apply (value_view s s' o _ v (VObj KExternal (oaddr v) (olen v))); auto. rewrite G. destruct (Nat.eq_dec _ _); [lia|]. auto.
  - unfold value. rewrite G. destruct (Nat.eq_dec o o); [reflexivity|congruence].
  - split; auto. rewrite S'. apply K.
  - intros x Lx Nx. assert (Q : nth_error (objs s') x = nth_error (objs s) x) by (rewrite G; destruct (Nat.eq_dec x o); [congruence|auto]).
    split; auto. apply value_same; auto.
Qed.
(** The move constructor of a fixed-size external vector leaves a vector that still has
    its size but no memory: it has no value, and reading it is undefined. *)
Theorem external_fixed_move_construct : forall (T : Type) (s : state T) o l, value s o = Some l -> l <> [] ->
  exists s', ext_fixed_move_ctor o s = ROk (length (objs s)) s' /\ value s' (length (objs s)) = Some l /\
    size_of s' o = length l /\ (forall i, obj_get o i s' = RUB UBMem) /\ memory_kept s s' /\ objects_kept s s' (fun o' => o' = o).
Proof.
  intros T s o l H NE. unfold ext_fixed_move_ctor. destruct (value_inv _ _ _ H) as (v & A & Lv & _). rewrite (bindM_ok _ _ _ v s) by (apply get_obj_ok; auto).
  destruct (new_obj_run s (VObj KExternal (oaddr v) (olen v))) as (s1 & E & K & Ln & N & F). rewrite (bindM_ok _ _ _ _ _ E).
  assert (L := alive_lt _ _ _ A). destruct (set_obj_ok s1 o (Some (VObj (okind v) None (olen v)))) as (s' & E' & B' & S' & _ & G); [lia|].
  rewrite (bindM_ok _ _ _ _ _ E'). exists s'. split; [reflexivity|]. assert (KK : blocks s' = blocks s) by (rewrite B'; apply K).
  assert (Go : nth_error (objs s') o = Some (Some (VObj (okind v) None (olen v)))) by (rewrite G; destruct (Nat.eq_dec o o); [auto|congruence]).
  split; [|split; [|split; [|split]]].
  - rewrite <- H. apply (value_view s s' o _ v (VObj KExternal (oaddr v) (olen v))); auto. rewrite G. destruct (Nat.eq_dec _ _); [lia|]. auto.
  - rewrite (size_of_eq _ _ _ Go). auto.
  - intros i. unfold obj_get. rewrite (bindM_ok _ _ _ _ _ (get_obj_ok _ _ _ Go)). reflexivity.
  - split; auto. rewrite S'. apply K.
  - intros x Lx Nx. assert (Q : nth_error (objs s') x = nth_error (objs s) x) by (rewrite G; destruct (Nat.eq_dec x o); [congruence|auto]).
    split; auto. apply value_same; auto.
Qed.
Theorem external_move_assign : forall (T : Type) (s : state T) o1 o2 l v1, nth_error (objs s) o1 = Some (Some v1) -> value s o2 = Some l -> o1 <> o2 ->
  exists s', ext_move_assign o1 o2 s = ROk tt s' /\ value s' o1 = Some l /\ value s' o2 = Some [] /\
    memory_kept s s' /\ objects_kept s s' (fun o' => o' = o1 \/ o' = o2).
Proof.
  intros T s o1 o2 l v1 A1 H N. unfold ext_move_assign. destruct (value_inv _ _ _ H) as (v & A & _).
  rewrite (bindM_ok _ _ _ _ _ (get_obj_ok _ _ _ A1)), (bindM_ok _ _ _ _ _ (get_obj_ok _ _ _ A)).
  assert (L1 := alive_lt _ _ _ A1). assert (L2 := alive_lt _ _ _ A).
  destruct (set_obj_ok s o1 (Some (VObj (okind v1) (oaddr v) (olen v)))) as (s1 & E1 & B1 & S1 & Ln & G1); auto. rewrite (bindM_ok _ _ _ _ _ E1).
  destruct (set_obj_ok s1 o2 (Some (VObj (okind v) None 0))) as (s' & E' & B' & S' & _ & G); [lia|]. exists s'. split; auto.
  assert (KK : blocks s' = blocks s) by congruence. split; [|split; [|split]].
  - rewrite <- H. apply (value_view s s' o2 o1 v (VObj (okind v1) (oaddr v) (olen v))); auto. rewrite G. destruct (Nat.eq_dec o1 o2); [congruence|]. rewrite G1. destruct (Nat.eq_dec o1 o1); [auto|congruence].
  - unfold value. rewrite G. destruct (Nat.eq_dec o2 o2); [reflexivity|congruence].
  - split; congruence.
  - intros x Lx Nx. assert (Q : nth_error (objs s') x = nth_error (objs s) x).
    { rewrite G. destruct (Nat.eq_dec x o2); [tauto|]. rewrite G1. destruct (Nat.eq_dec x o1); [tauto|auto]. }
    split; auto. apply value_same; auto.
Qed.
(** v = std::move(v) loses the view. *)
Theorem external_self_move_empties : forall (T : Type) (s : state T) o l, value s o = Some l ->
  exists s', ext_move_assign o o s = ROk tt s' /\ value s' o = Some [] /\ memory_kept s s'.
Proof.
  intros T s o l H. unfold ext_move_assign. destruct (value_inv _ _ _ H) as (v & A & _). rewrite !(bindM_ok _ _ _ _ _ (get_obj_ok _ _ _ A)).
  assert (L1 := alive_lt _ _ _ A).
  destruct (set_obj_ok s o (Some (VObj (okind v) (oaddr v) (olen v)))) as (s1 & E1 & B1 & S1 & Ln & G1); auto. rewrite (bindM_ok _ _ _ _ _ E1).
  destruct (set_obj_ok s1 o (Some (VObj (okind v) None 0))) as (s' & E' & B' & S' & _ & G); [lia|]. exists s'. split; auto. split; [|split; congruence].
  unfold value. rewrite G. destruct (Nat.eq_dec o o); [reflexivity|congruence].
Qed.
Theorem external_self_move_refuted : exists (s s' : state Z) o l, value s o = Some l /\ ext_move_assign o o s = ROk tt s' /\ value s' o <> Some l.
Proof.
  exists (St [Live [Some 1; Some 2]%Z] [Some (VObj KExternal (Some (0, 0)) 2)] []). eexists. exists 0, [1; 2]%Z.
  split; [reflexivity|]. split; [reflexivity|]. discriminate.
Qed.
Theorem external_fixed_move_assign : forall (T : Type) (s : state T) o1 o2 l v1, nth_error (objs s) o1 = Some (Some v1) -> value s o2 = Some l -> o1 <> o2 -> olen v1 = length l ->
  exists s', ext_fixed_move_assign o1 o2 s = ROk tt s' /\ value s' o1 = Some l /\ size_of s' o2 = length l /\ (forall i, obj_get o2 i s' = RUB UBMem) /\
    memory_kept s s' /\ objects_kept s s' (fun o' => o' = o1 \/ o' = o2).
Proof.
  intros T s o1 o2 l v1 A1 H N SZ. unfold ext_fixed_move_assign. destruct (value_inv _ _ _ H) as (v & A & Lv & _).
  rewrite (bindM_ok _ _ _ _ _ (get_obj_ok _ _ _ A1)), (bindM_ok _ _ _ _ _ (get_obj_ok _ _ _ A)).
  assert (L1 := alive_lt _ _ _ A1). assert (L2 := alive_lt _ _ _ A).
  destruct (set_obj_ok s o1 (Some (VObj (okind v1) (oaddr v) (olen v1)))) as (s1 & E1 & B1 & S1 & Ln & G1); auto. rewrite (bindM_ok _ _ _ _ _ E1).
  assert (A' : nth_error (objs s1) o2 = Some (Some v)) by (rewrite G1; destruct (Nat.eq_dec o2 o1); [congruence|auto]).
  rewrite (bindM_ok _ _ _ _ _ (get_obj_ok _ _ _ A')).
  destruct (set_obj_ok s1 o2 (Some (VObj (okind v) None (olen v)))) as (s' & E' & B' & S' & _ & G); [lia|]. exists s'. split; auto.
  assert (KK : blocks s' = blocks s) by congruence.
  assert (Go : nth_error (objs s') o2 = Some (Some (VObj (okind v) None (olen v)))) by (rewrite G; destruct (Nat.eq_dec o2 o2); [auto|congruence]).
  split; [|split; [|split; [|split]]].
  - rewrite <- H. apply (value_view s s' o2 o1 v (VObj (okind v1) (oaddr v) (olen v1))); auto; [|cbn; congruence]. rewrite G. destruct (Nat.eq_dec o1 o2); [congruence|]. rewrite G1. destruct (Nat.eq_dec o1 o1); [auto|congruence].
  - rewrite (size_of_eq _ _ _ Go). auto.
  - intros i. unfold obj_get. rewrite (bindM_ok _ _ _ _ _ (get_obj_ok _ _ _ Go)). reflexivity.
  - split; congruence.
  - intros x Lx Nx. assert (Q : nth_error (objs s') x = nth_error (objs s) x).
    { rewrite G. destruct (Nat.eq_dec x o2); [tauto|]. rewrite G1. destruct (Nat.eq_dec x o1); [tauto|auto]. }
    split; auto. apply value_same; auto.
Qed.
Theorem external_reset : forall (T : Type) (s : state T) o v, nth_error (objs s) o = Some (Some v) ->
  exists s', ext_reset o s = ROk tt s' /\ value s' o = Some [] /\ memory_kept s s' /\ objects_kept s s' (fun o' => o' = o).
Proof.
  intros T s o v A. unfold ext_reset. rewrite (bindM_ok _ _ _ _ _ (get_obj_ok _ _ _ A)). assert (L1 := alive_lt _ _ _ A).
  destruct (set_obj_ok s o (Some (VObj (okind v) None 0))) as (s' & E & B & S' & _ & G); auto. exists s'. split; auto. split; [|split; [split; auto|]].
  - unfold value. rewrite G. destruct (Nat.eq_dec o o); [reflexivity|congruence].
  - intros x Lx Nx. assert (Q : nth_error (objs s') x = nth_error (objs s) x) by (rewrite G; destruct (Nat.eq_dec x o); [tauto|auto]).
    split; auto. apply value_same; auto.
Qed.
(** ** C48: assignment from an array given by its address: the size() values found there,
    unless elements still to be read have been overwritten (the array starts in the target
    below its first element is excluded). *)
Theorem assign_from_pointer : forall (T : Type) (s : state T) o b off l, mapped s o -> size_of s o = length l -> read_window s b off (length l) = Some l ->
  (forall v off0, nth_error (objs s) o = Some (Some v) -> oaddr v = Some (b, off0) -> off0 <= off \/ off + length l <= off0) ->
  exists s', assign_pointer o b off s = ROk tt s' /\ value s' o = Some l /\ others_kept s s' o.
Proof.
  intros T s o b off l Hm Hs Hr Hd. destruct Hm as (v & Hv & Hv'). assert (Hm : mapped s o) by (exists v; auto). rewrite (size_of_eq _ _ _ Hv) in Hs.
  unfold assign_pointer. rewrite (bindM_ok _ _ _ _ _ (get_obj_ok _ _ _ Hv)), Hs. apply read_window_iff in Hr. destruct Hr as [_ Hr].
  destruct (store_value s o l (fun i => rd b (off + i))) as (s' & E & Sh & V & F).
  - exists v; auto.
  - intros k x sk Hx Sh _ Hc. unfold rd. rewrite (bindM_ok _ _ _ (Some x) sk); [reflexivity|]. apply rd_cell_ok. rewrite Hc; [apply Hr; auto|].
    intros v0 off0 A B. assert (Kl : k < length l) by (apply nth_error_Some; congruence). destruct (Hd v0 off0 A B); lia.
  - exists s'. split; auto. split; auto. apply frame_value; auto.
Qed.
Example views_case : let s := @St Z [Live [Some 1; Some 2; Some 3]%Z] [Some (VObj KExternal (Some (0, 1)) 2)] [] in
  value s 0 = Some [2; 3]%Z /\ mapped s 0 /\ read_window s 0 0 2 = Some [1; 2]%Z /\
  match ext_copy_ctor 0 s with ROk o s' => match obj_put 0 1 9%Z s' with ROk _ s2 => value s2 o = Some [2; 9]%Z | _ => False end | _ => False end.
Proof. cbn. split; [reflexivity|]. split; [|split; reflexivity]. eexists. split; [reflexivity|]. cbn. intros [|[|i]] H; [eexists; reflexivity..|lia]. Qed.
Print Assumptions external_copy_shares. Print Assumptions external_move_assign. Print Assumptions assign_from_pointer. Print Assumptions external_fixed_move_construct.
