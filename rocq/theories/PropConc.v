(** C70: threads that share no vector that one of them may write do not interfere,
    whatever the order of their memory accesses. *)
From Coq Require Import List ZArith Bool Arith Lia.
From Verif Require Import Base BaseFacts HeapModel HeapSpec ConcModel ConcSpec ConcProofs ConcRefine.
Import ListNotations.

Section Threads.
Context {T : Type}.
Notation state := (state T).

(** the threads share nothing that one of them may write, their names mean something, and
    each of them, alone, does nothing undefined *)
Definition well_behaved {A} (g : config T A) : Prop :=
  separated (map snd (threads g)) (shared g) /\
  forall t p e, nth_error (threads g) t = Some (p, e) ->
    meaningful (shared g) e /\ well_defined (alone p e (shared g)).

(** For every order of the accesses: nothing undefined happens; a thread that got as many
    turns as it needs alone has ended; and a thread that has ended has the result, the
    exception and the contents of its vectors that it has when it runs alone.  The vectors
    it was given are still the same. *)
Theorem threads_do_not_interfere {A} (g : config T A) order : well_behaved g ->
  exists g', together order g = Some g' /\ length (threads g') = length (threads g) /\
  forall t p e, nth_error (threads g) t = Some (p, e) -> exists p' e',
    nth_error (threads g') t = Some (p', e') /\
    (turns p e (shared g) <= count_occ Nat.eq_dec order t -> ended p') /\
    (ended p' -> same_outcome p' e' (shared g') (alone p e (shared g))) /\
    (forall i x, nth_error (names e) i = Some x -> nth_error (names e') i = Some x).
Proof.
  intros [S H]. pose proof (good_of g S H) as G.
  destruct (together_good order g G) as (g' & X & G' & [L F]). exists g'. split; auto. split; auto.
  intros t p e Ht. destruct (F t p e Ht) as (p' & e' & Ht' & R & Tn & l & Nm). exists p', e'.
  assert (O : own (shared g) e). { apply (proj1 (proj1 G) t e). rewrite nth_error_map, Ht. reflexivity. }
  destruct (alone_vrun p e (shared g) (proj1 (H t p e Ht)) O) as [Ev Et].
  split; auto. split; [|split].
  - intros Le. assert (Z : vturns p' (view_of (shared g') e') = 0) by lia.
    pose proof (proj2 G' t p' e' Ht') as D. destruct p' as [a|x|u|c k]; simpl in *; auto.
    destruct (vexec c (view_of (shared g') e')) as [[a V]|]; [discriminate|contradiction].
  - intros En. rewrite <- Ev in R. destruct p' as [a|x|u|c k]; simpl in *; try contradiction;
      destruct (alone p e (shared g)); try discriminate; injection R as <- R; split; auto;
      apply view_same_vectors; unfold view_of; congruence.
  - intros i x Hx. rewrite Nm. rewrite nth_error_app1; auto. eapply nth_error_lt; eauto.
Qed.

(** Hence the order cannot be observed: for any two orders that give every thread its turns,
    every thread ends in the same way, with the same contents. *)
Corollary order_is_irrelevant {A} (g : config T A) order1 order2 : well_behaved g ->
  (forall t p e, nth_error (threads g) t = Some (p, e) ->
     turns p e (shared g) <= count_occ Nat.eq_dec order1 t /\ turns p e (shared g) <= count_occ Nat.eq_dec order2 t) ->
  exists g1 g2, together order1 g = Some g1 /\ together order2 g = Some g2 /\
  forall t p e, nth_error (threads g) t = Some (p, e) -> exists p' e1 e2,
    nth_error (threads g1) t = Some (p', e1) /\ nth_error (threads g2) t = Some (p', e2) /\ ended p' /\
    same_vectors e1 (shared g1) e2 (shared g2).
Proof.
  intros W H.
  destruct (threads_do_not_interfere g order1 W) as (g1 & X1 & _ & F1).
  destruct (threads_do_not_interfere g order2 W) as (g2 & X2 & _ & F2).
  exists g1, g2. split; auto. split; auto. intros t p e Ht.
  destruct (H t p e Ht) as [L1 L2].
  destruct (F1 t p e Ht) as (p1 & e1 & N1 & T1 & O1 & _), (F2 t p e Ht) as (p2 & e2 & N2 & T2 & O2 & _).
  specialize (T1 L1). specialize (T2 L2). specialize (O1 T1). specialize (O2 T2).
  assert (SV : forall ea sa eb sb ec sc, same_vectors ea sa ec sc -> same_vectors eb sb ec sc ->
            @same_vectors T ea sa eb sb).
  { intros ea sa eb sb ec sc [La Ha] [Lb Hb]. split; [congruence|]. intros i o w Hi.
    destruct (Ha i o w Hi) as (o' & Hc & E).
    destruct (nth_error (names eb) i) as [[ob wb]|] eqn:Eb.
    - destruct (Hb i ob wb Eb) as (o2 & Hc2 & E2). rewrite Hc in Hc2. injection Hc2 as <- <-. exists ob. split; auto. congruence.
    - apply nth_error_None in Eb. apply nth_error_lt in Hi. lia. }
  exists p1, e1, e2.
  destruct p1, p2; simpl in *; try contradiction; destruct (alone p e (shared g)); try contradiction;
    destruct O1 as [-> O1], O2 as [-> O2]; repeat split; auto; eapply SV; eauto.
Qed.

(** No data race: at any time, if the next accesses of two threads touch the same location,
    neither of them writes it. *)
Theorem no_data_race {A} (g g' : config T A) order t t' c k c' k' e e' l wr wr' : well_behaved g ->
  together order g = Some g' -> t <> t' ->
  nth_error (threads g') t = Some (PAct c k, e) -> nth_error (threads g') t' = Some (PAct c' k', e') ->
  touches (shared g') e c l wr -> touches (shared g') e' c' l wr' -> wr = false /\ wr' = false.
Proof.
  intros [S H] X ne N N' C C'. pose proof (good_of g S H) as G.
  destruct (together_good order g G) as (g1 & X1 & G1 & _). rewrite X in X1. injection X1 as <-.
  split; [exact (no_race g' t t' c k c' k' e e' l wr wr' G1 ne N N' C C')|].
  exact (no_race g' t' t c' k' c k e' e l wr' wr G1 (not_eq_sym ne) N' N C' C).
Qed.

(** A vector that no thread may write, directly or through its memory, keeps its contents. *)
Theorem untouchable_keeps_contents {A} (g : config T A) order g' o : well_behaved g ->
  untouchable (map snd (threads g)) (shared g) o -> together order g = Some g' ->
  contents (shared g') o = contents (shared g) o.
Proof. intros [S H]. apply untouched. exact (good_of g S H). Qed.

(** ** A thread alone is the sequential program of HeapModel.v *)
Variable triv : bool.
Lemma acts_of {A} (ns : list (nat * bool)) P (J : A -> tenv -> state -> Prop) (p : prog T A) m e s :
  agr (inv ns P) J p m -> names e = ns -> P (handles e) (objs s) -> acts_as e s p m.
Proof.
  intros H N HP. specialize (H e s (conj N HP)). unfold acts_as. destruct (alone p e s); auto. exact (proj1 H).
Qed.
Theorem thread_sequence {A B} (p : prog T A) (f : A -> prog T B) e s : alone (pbind p f) e s =
  match alone p e s with
  | Returns a e' s' => alone (f a) e' s'
  | Throws x e' s' => Throws x e' s'
  | Undefined u => Undefined u
  end.
Proof. apply alone_bind. Qed.
Theorem thread_assign i o (x : vexpr T) e (s : state) : nth_error (names e) i = Some (o, true) -> known (names e) x -> tidy (objs s) o ->
  acts_as e s (t_assign triv i x) (assign triv o (resolve (names e) x)).
Proof. intros Hi Kx Td. eapply acts_of; [eapply agr_assign|reflexivity|]; eauto. Qed.
Theorem thread_compound op i o (x : vexpr T) e (s : state) : nth_error (names e) i = Some (o, true) -> known (names e) x -> tidy (objs s) o ->
  acts_as e s (t_compound triv op i x) (compound triv op o (resolve (names e) x)).
Proof. intros Hi Kx Td. eapply acts_of; [eapply agr_compound|reflexivity|]; eauto. Qed.
Theorem thread_pairwise op i o (x : vexpr T) e (s : state) : nth_error (names e) i = Some (o, true) -> known (names e) x ->
  acts_as e s (t_pairwise op i x) (pairwise op o (resolve (names e) x)).
Proof. intros Hi Kx. eapply acts_of; [eapply agr_pairwise|reflexivity|exact I]; eauto. Qed.
Theorem thread_scale op i o (c : T) e (s : state) : nth_error (names e) i = Some (o, true) ->
  acts_as e s (t_scale op i c) (scale op o (SVal c)).
Proof. intros Hi. eapply acts_of; [eapply agr_scale|reflexivity|exact I]; eauto. Qed.
Theorem thread_fill i o (c : T) e (s : state) : nth_error (names e) i = Some (o, true) ->
  acts_as e s (t_fill i c) (fill o (SVal c)).
Proof. intros Hi. eapply acts_of; [eapply agr_fill|reflexivity|exact I]; eauto. Qed.
Theorem thread_set i o (l : list T) e (s : state) : nth_error (names e) i = Some (o, true) -> tidy (objs s) o ->
  acts_as e s (t_set triv i l) (assign_elements triv o (map SVal l)).
Proof. intros Hi Td. eapply acts_of; [eapply agr_set|reflexivity|]; eauto. Qed.
Theorem thread_resize i o n e (s : state) : nth_error (names e) i = Some (o, true) -> tidy (objs s) o ->
  acts_as e s (t_resize triv i n) (resize triv o n).
Proof. intros Hi Td. eapply acts_of; [eapply agr_resize|reflexivity|]; eauto. Qed.
Theorem thread_resize_fast i o n e (s : state) : nth_error (names e) i = Some (o, true) -> tidy (objs s) o ->
  acts_as e s (t_resize_fast triv i n) (resize_fast triv o n).
Proof. intros Hi Td. eapply acts_of; [eapply agr_resize_fast|reflexivity|]; eauto. Qed.
Theorem thread_move i j o1 o2 e (s : state) : nth_error (names e) i = Some (o1, true) -> nth_error (names e) j = Some (o2, true) ->
  acts_as e s (t_move_assign i j) (move_assign o1 o2).
Proof. intros Hi Hj. eapply acts_of; [eapply agr_move|reflexivity|exact I]; eauto. Qed.
Theorem thread_destroy i o e (s : state) : nth_error (names e) i = Some (o, true) -> tidy (objs s) o ->
  acts_as e s (t_dtor triv i) (dtor triv o).
Proof. intros Hi Td. eapply acts_of; [eapply agr_dtor|reflexivity|]; eauto. Qed.

(** construction: the new vector gets the next name; after an exception there is no
    vector (HeapModel.v forgets the object, the thread's list keeps a dead entry) *)
Definition constructs (body : nat -> prog T unit) (hbody : nat -> M T unit) (e : tenv) (s : state) : Prop :=
  let o := length (objs s) in
  match alone (t_ctor body) e s with
  | Returns i e' s' => ctor hbody (with_sched s (tsched e)) = ROk o (with_sched s' (tsched e')) /\
                       i = length (names e) /\ names e' = names e ++ [(o, true)]
  | Throws x e' s' => ctor hbody (with_sched s (tsched e)) = RThrow x (with_sched (drop_last s') (tsched e'))
  | Undefined u => ctor hbody (with_sched s (tsched e)) = RUB u
  end.
Lemma new_name (l : list (nat * bool)) x : nth_error (l ++ [x]) (length l) = Some x.
Proof. rewrite nth_error_snoc. now destruct (Nat.eq_dec _ _). Qed.
Lemma known_snoc l x z : @known T l x -> known (l ++ [z]) x /\ resolve (l ++ [z]) x = resolve l x.
Proof.
  induction x; simpl; auto.
  - intros H. rewrite app_length. split; [simpl; lia|]. unfold obj_of. now rewrite nth_error_app1.
  - intros H. destruct (IHx H) as [? ->]. auto.
  - intros [H1 H2]. destruct (IHx1 H1) as [? ->], (IHx2 H2) as [? ->]. auto.
  - intros H. destruct (IHx H) as [? ->]. auto.
  - intros [H1 H2]. destruct (IHx1 H1) as [? ->], (IHx2 H2) as [? ->]. auto.
  - intros H. destruct (IHx H) as [? ->]. auto.
Qed.
Theorem thread_construct_size n e (s : state) : constructs (fun i => t_resize_fast triv i n) (fun o => resize_fast triv o n) e s.
Proof. apply alone_ctor; [apply plain_resize_fast|]. apply agr_resize_fast, new_name. Qed.
Theorem thread_construct_expr (x : vexpr T) e (s : state) : known (names e) x ->
  constructs (fun i => t_assign triv i x) (fun o => assign triv o (resolve (names e) x)) e s.
Proof.
  intros K. apply alone_ctor; [apply plain_assign|].
  destruct (known_snoc (names e) x (length (objs s), true) K) as [K' <-]. apply agr_assign; auto using new_name.
Qed.
Theorem thread_construct_list (l : list T) e (s : state) : constructs (fun i => t_set triv i l) (fun o => assign_elements triv o (map SVal l)) e s.
Proof. apply alone_ctor; [apply plain_set|]. apply agr_set, new_name. Qed.
Theorem thread_construct_move j o2 e (s : state) : nth_error (names e) j = Some (o2, true) ->
  constructs (fun i => t_move_assign i j) (fun o => move_assign o o2) e s.
Proof.
  intros Hj. apply alone_ctor; [apply plain_move|].
  intros e0 s0 [N HP]. apply (agr_move (names e ++ [(length (objs s), true)])); [apply new_name| |split; auto; exact I].
  rewrite nth_error_app1; auto. eapply nth_error_lt; eauto.
Qed.
End Threads.

(** ** Cases *)
(** three vectors of integers: 0 = (1,2,3), which both threads read; 1 = (10,20), which
    the first thread writes; 2 = (7,7,7), which the second one writes *)
Definition world : state Z :=
  St [Live [Some 1; Some 2; Some 3]; Live [Some 10; Some 20]; Live [Some 7; Some 7; Some 7]]%Z
     [Some (VObj KAllocated (Some (0, 0)) 3); Some (VObj KAllocated (Some (1, 0)) 2); Some (VObj KAllocated (Some (2, 0)) 3)] [].
(** names: 0 is the shared vector, 1 the thread's own *)
Definition env (own : nat) (sch : list bool) : tenv := TE [(0, false); (own, true)] [] sch.
(** first thread: v1 = v0 + v0 (it grows), then a local copy that is destroyed *)
Definition worker1 : prog Z unit :=
  pbind (t_assign false 1 (EBin Z.add (EObj 0) (EObj 0))) (fun _ =>
  pbind (t_ctor (fun i => t_assign false i (EObj 1))) (fun i =>
  pbind (t_scale Z.mul i 5%Z) (fun _ => t_dtor false i))).
(** second thread: v2 -= v0, and a resize whose allocation fails *)
Definition worker2 : prog Z unit :=
  pbind (t_compound false Z.sub 1 (EObj 0)) (fun _ => t_resize false 1 100%Z).
Definition workers : config Z unit := Config [(worker1, env 1 []); (worker2, env 2 [false])] world.

Ltac cases_nth := repeat match goal with
  | H : nth_error (_ :: _) ?i = Some _ |- _ => destruct i; simpl in H
  | H : nth_error [] ?i = Some _ |- _ => destruct i; discriminate H
  | H : Some _ = Some _ |- _ => injection H; clear H; intros; subst
  | H : (_, _) = (_, _) |- _ => injection H; clear H; intros; subst
  end.
Example workers_well_behaved : well_behaved workers.
Proof.
  split; [split|].
  - intros t t' e e' i j o w. destruct t as [|[|t]]; simpl; [| |destruct t; discriminate]; intros [= <-];
      (destruct t' as [|[|t']]; simpl; [| |destruct t'; discriminate]); intros [= <-];
      (destruct i as [|[|i]]; simpl; [discriminate| |destruct i; discriminate]); intros [= <-];
      (destruct j as [|[|j]]; simpl; [discriminate| |destruct j; discriminate]); try discriminate; auto.
  - intros t t' e e' x y b. destruct t as [|[|t]]; simpl; [| |destruct t; discriminate]; intros [= <-];
      (destruct t' as [|[|t']]; simpl; [| |destruct t'; discriminate]); intros [= <-];
      (destruct x as [[|[|i]]|[|h]]; simpl;
        [intros [? ?]; discriminate| |intros [? E]; destruct i; discriminate E|intros _ [? ?]; discriminate|intros _ [? ?]; discriminate]);
      intros _ (o & w & v & off & [= <- <-] & [= <-] & [= <- <-] & _);
      (destruct y as [[|[|j]]|[|h]]; simpl;
        [| |intros (? & ? & ? & ? & E & _); destruct j; discriminate E|intros [? ?]; discriminate|intros [? ?]; discriminate]);
      intros (o' & w' & v' & off' & [= <- <-] & [= <-] & E & _); try discriminate E; auto.
  - intros t p e. destruct t as [|[|t]]; simpl; [| |destruct t; discriminate]; intros [= <- <-];
      (split; [|vm_compute; exact I]); (split; [|split]).
    1,4: intros [|[|i]] o w; simpl; try (destruct i; discriminate); intros [= <- <-]; lia.
    1,3: intros [|[|i]] o w v b off; simpl; try (destruct i; discriminate); intros [= <- <-] [= <-] [= <- <-]; simpl; lia.
    all: intros [|h] b; discriminate.
Qed.
(** both threads need many turns; the second ends with an exception *)
Definition alternate (n : nat) : list nat := concat (repeat [0; 1] n).
Definition seen {A} (g : option (config Z A)) (os : list nat) :=
  option_map (fun g => (map (fun p => match fst p with PThrow x => Some x | _ => None end) (threads g), map (contents (shared g)) os)) g.
Example workers_turns : turns worker1 (env 1 []) world = 54 /\ turns worker2 (env 2 [false]) world = 16.
Proof. vm_compute. auto. Qed.
(** two orders; the second thread ends with bad_alloc in both *)
Example workers_end :
  seen (together (alternate 60) workers) [0; 1; 2] =
    Some ([None; Some EBadAlloc],
          [Some [Some 1; Some 2; Some 3]; Some [Some 2; Some 4; Some 6]; Some [Some 6; Some 5; Some 4]]%Z) /\
  seen (together (repeat 1 30 ++ repeat 0 80) workers) [0; 1; 2] = seen (together (alternate 60) workers) [0; 1; 2].
Proof. vm_compute. auto. Qed.
(** the shared vector may not be written by anybody *)
Example workers_shared : untouchable (map snd (threads workers)) world 0.
Proof.
  split; [simpl; lia|]. split.
  - intros t e i. destruct t as [|[|t]]; simpl; [| |destruct t; discriminate]; intros [= <-];
      (destruct i as [|[|i]]; simpl; [discriminate|discriminate|destruct i; discriminate]).
  - intros v b off [= <-] [= <- <-]. split; [simpl; lia|]. intros t e x.
    destruct t as [|[|t]]; simpl; [| |destruct t; discriminate]; intros [= <-];
      (destruct x as [[|[|i]]|[|h]]; simpl;
        [intros [? ?]; discriminate| |intros [? E]; destruct i; discriminate E|intros _ [? ?]; discriminate|intros _ [? ?]; discriminate]);
      intros _ (o & w & v & off & [= <- <-] & [= <-] & E & _); discriminate E.
Qed.

(** the conditions of the sequential theorems hold of the first thread *)
Example worker1_sequential : nth_error (names (env 1 [])) 1 = Some (1, true) /\
  known (names (env 1 [])) (EBin Z.add (EObj 0) (EObj 0)) /\ tidy (objs world) 1.
Proof. split; [reflexivity|]. split; [simpl; lia|]. intros v [= <-]. discriminate. Qed.

(** The condition is needed.  Two threads that add to the same vector, each defined alone:
    one order gives 10 + 1 + 2, another loses an addition. *)
Definition both_write : config Z unit :=
  Config [(t_compound true Z.add 0 (ETmp [1; 0]%Z), TE [(1, true)] [] []);
          (t_compound true Z.add 0 (ETmp [2; 0]%Z), TE [(1, true)] [] [])] world.
Definition defined_alone {A} (g : config Z A) : Prop :=
  forall t p e, nth_error (threads g) t = Some (p, e) -> meaningful (shared g) e /\ well_defined (alone p e (shared g)).
Ltac small_meaningful :=
  split; [|split];
  [intros [|[|i]] o w; simpl; try (destruct i; discriminate); try discriminate; intros [= <- <-]; lia
  |intros [|[|i]] o w v b off; simpl; try (destruct i; discriminate); try discriminate; intros [= <- <-] [= <-] [= <- <-]; simpl; lia
  |intros [|h] b; discriminate].
Theorem writers_of_one_vector_refuted : defined_alone both_write /\
  exists order1 order2 g1 g2, together order1 both_write = Some g1 /\ together order2 both_write = Some g2 /\
    Forall (fun p => ended (fst p)) (threads g1) /\ Forall (fun p => ended (fst p)) (threads g2) /\
    contents (shared g1) 1 = Some [Some 13; Some 20]%Z /\ contents (shared g2) 1 <> Some [Some 13; Some 20]%Z.
Proof.
  split.
  - intros t p e. destruct t as [|[|t]]; simpl; [| |destruct t; discriminate]; intros [= <- <-];
      (split; [small_meaningful|vm_compute; exact I]).
  - eexists (repeat 0 20 ++ repeat 1 20), (alternate 20), _, _. split; [vm_compute; reflexivity|].
    split; [vm_compute; reflexivity|]. split; [repeat constructor|]. split; [repeat constructor|].
    split; [reflexivity|]. vm_compute. discriminate.
Qed.
(** One thread resizes a vector while another reads it: undefined for some order, although
    each is defined alone. *)
Definition resize_and_read : config Z Z :=
  Config [(pbind (t_resize true 0 5%Z) (fun _ => PRet 0%Z), TE [(0, true)] [] []);
          (pbind (t_get 0 2) (fun x => PRet x), TE [(0, false)] [] [])] world.
Theorem reading_during_resize_refuted : defined_alone resize_and_read /\
  exists order, together order resize_and_read = None.
Proof.
  split.
  - intros t p e. destruct t as [|[|t]]; simpl; [| |destruct t; discriminate]; intros [= <- <-];
      (split; [small_meaningful|vm_compute; exact I]).
  - exists (repeat 0 9 ++ [1]). vm_compute. reflexivity.
Qed.

Print Assumptions threads_do_not_interfere.
Print Assumptions order_is_irrelevant.
Print Assumptions no_data_race.
Print Assumptions untouchable_keeps_contents.
Print Assumptions thread_sequence.
Print Assumptions thread_assign.
Print Assumptions thread_compound.
Print Assumptions thread_pairwise.
Print Assumptions thread_scale.
Print Assumptions thread_fill.
Print Assumptions thread_set.
Print Assumptions thread_resize.
Print Assumptions thread_resize_fast.
Print Assumptions thread_move.
Print Assumptions thread_destroy.
Print Assumptions thread_construct_size.
Print Assumptions thread_construct_expr.
Print Assumptions thread_construct_list.
Print Assumptions thread_construct_move.
Print Assumptions writers_of_one_vector_refuted.
Print Assumptions reading_during_resize_refuted.
