(** C79: threads that share no matrix that one of them may write do not interfere,
    whatever the order of their memory accesses. *)
From Coq Require Import List ZArith Bool Arith Lia.
From Verif Require Import Base BaseFacts HeapModel HeapSpec MatModel MHeapModel MHeapSpec.
From Verif Require Import ConcModel ConcSpec ConcProofs ConcRefine MConcModel MConcSpec MConcProofs MConcRefine ZInst.
Import ListNotations.

Section Threads.
Context {T : Type}.
Notation mstate := (mstate T).

(** the threads share nothing that one of them may write, their names mean something, and
    each of them, alone, does nothing undefined; every object has its size members *)
Definition mwell_behaved {A} (g : mconfig T A) : Prop :=
  length (dims (mshared g)) = length (objs (heap (mshared g))) /\
  separated (map snd (mthreads g)) (heap (mshared g)) /\
  forall t p e, nth_error (mthreads g) t = Some (p, e) ->
    meaningful (heap (mshared g)) e /\ mwell_defined (malone p e (mshared g)).

(** For every order of the accesses: nothing undefined happens; a thread that got as many
    turns as it needs alone has ended; and a thread that has ended has the result, the
    exception, and matrices of the sizes, layouts and elements that it has when it runs
    alone.  The matrices it was given are still the same. *)
Theorem matrix_threads_do_not_interfere {A} (g : mconfig T A) order : mwell_behaved g ->
  exists g', mtogether order g = Some g' /\ length (mthreads g') = length (mthreads g) /\
  forall t p e, nth_error (mthreads g) t = Some (p, e) -> exists p' e',
    nth_error (mthreads g') t = Some (p', e') /\
    (mturns p e (mshared g) <= count_occ Nat.eq_dec order t -> mended p') /\
    (mended p' -> msame_outcome p' e' (mshared g') (malone p e (mshared g))) /\
    (forall i x, nth_error (names e) i = Some x -> nth_error (names e') i = Some x).
Proof.
  intros (W & S & H). pose proof (mgood_of g W S H) as G.
  destruct (mtogether_good order g G) as (g' & X & G' & [L F]). exists g'. split; auto. split; auto.
  intros t p e Ht. destruct (F t p e Ht) as (p' & e' & Ht' & R & Tn & l & Nm). exists p', e'.
  assert (O : own (heap (mshared g)) e). { apply (proj1 (proj1 (proj1 G)) t e). rewrite nth_error_map, Ht. reflexivity. }
  destruct (malone_vrun p e (mshared g) W (proj1 (H t p e Ht)) O) as [Ev Et].
  split; auto. split; [|split].
  - intros Le. assert (Z : mvturns p' (mview_of (mshared g') e') = 0) by lia.
    pose proof (proj2 G' t p' e' Ht') as D. destruct p' as [a|x|u|c k]; simpl in *; auto.
    destruct (mvexec c (mview_of (mshared g') e')) as [[a V]|]; [discriminate|contradiction].
  - intros En. rewrite <- Ev in R. destruct p' as [a|x|u|c k]; simpl in En, R; try contradiction;
      destruct (malone p e (mshared g)) as [a1 e1 s1|x1 e1 s1|u1]; simpl in R; try discriminate R.
    + assert (E1 : a = a1) by congruence. assert (E2 : mview_of (mshared g') e' = mview_of s1 e1) by congruence.
      split; auto using view_same_matrices.
    + assert (E1 : x = x1) by congruence. assert (E2 : mview_of (mshared g') e' = mview_of s1 e1) by congruence.
      split; auto using view_same_matrices.
  - intros i x Hx. rewrite Nm. rewrite nth_error_app1; auto. eapply nth_error_lt; eauto.
Qed.

(** Hence the order cannot be observed: for any two orders that give every thread its turns,
    every thread ends in the same way, with equal matrices. *)
Corollary matrix_order_is_irrelevant {A} (g : mconfig T A) order1 order2 : mwell_behaved g ->
  (forall t p e, nth_error (mthreads g) t = Some (p, e) ->
     mturns p e (mshared g) <= count_occ Nat.eq_dec order1 t /\ mturns p e (mshared g) <= count_occ Nat.eq_dec order2 t) ->
  exists g1 g2, mtogether order1 g = Some g1 /\ mtogether order2 g = Some g2 /\
  forall t p e, nth_error (mthreads g) t = Some (p, e) -> exists p' e1 e2,
    nth_error (mthreads g1) t = Some (p', e1) /\ nth_error (mthreads g2) t = Some (p', e2) /\ mended p' /\
    same_matrices e1 (mshared g1) e2 (mshared g2).
Proof.
  intros W H.
  destruct (matrix_threads_do_not_interfere g order1 W) as (g1 & X1 & _ & F1).
  destruct (matrix_threads_do_not_interfere g order2 W) as (g2 & X2 & _ & F2).
  exists g1, g2. split; auto. split; auto. intros t p e Ht.
  destruct (H t p e Ht) as [L1 L2].
  destruct (F1 t p e Ht) as (p1 & e1 & N1 & T1 & O1 & _), (F2 t p e Ht) as (p2 & e2 & N2 & T2 & O2 & _).
  specialize (T1 L1). specialize (T2 L2). specialize (O1 T1). specialize (O2 T2).
  assert (EM : forall sa oa sb ob sc oc, equal_matrix sa oa sc oc -> equal_matrix sb ob sc oc -> @equal_matrix T sa oa sb ob).
  { intros sa oa sb ob sc oc [Xa (Ra & Ca & La & Ea)] [Xb (Rb & Cb & Lb & Eb)]. split; [tauto|].
    repeat split; try congruence. intros i j Hi Hj. rewrite (Ea i j Hi Hj). symmetry. apply Eb; congruence. }
  assert (SV : forall ea sa eb sb ec sc, same_matrices ea sa ec sc -> same_matrices eb sb ec sc ->
            @same_matrices T ea sa eb sb).
  { intros ea sa eb sb ec sc [La Ha] [Lb Hb]. split; [congruence|]. intros i o w Hi.
    destruct (Ha i o w Hi) as (o' & Hc & E).
    destruct (nth_error (names eb) i) as [[ob wb]|] eqn:Eb.
    - destruct (Hb i ob wb Eb) as (o2 & Hc2 & E2). rewrite Hc in Hc2. injection Hc2 as <- <-. exists ob. split; auto. eapply EM; eauto.
    - apply nth_error_None in Eb. apply nth_error_lt in Hi. lia. }
  exists p1, e1, e2.
  destruct p1, p2; simpl in T1, T2, O1, O2; try contradiction; destruct (malone p e (mshared g)); try contradiction;
    destruct O1 as [-> O1], O2 as [-> O2]; split; auto; split; auto; split; [exact I|eapply SV; eauto|exact I|eapply SV; eauto].
Qed.

(** No data race: at any time, if the next accesses of two threads touch the same location,
    neither of them writes it. *)
Theorem matrix_no_data_race {A} (g g' : mconfig T A) order t t' c k c' k' e e' l wr wr' : mwell_behaved g ->
  mtogether order g = Some g' -> t <> t' ->
  nth_error (mthreads g') t = Some (QAct c k, e) -> nth_error (mthreads g') t' = Some (QAct c' k', e') ->
  mtouches (mshared g') e c l wr -> mtouches (mshared g') e' c' l wr' -> wr = false /\ wr' = false.
Proof.
  intros (W & S & H) X ne N N' C C'. pose proof (mgood_of g W S H) as G.
  destruct (mtogether_good order g G) as (g1 & X1 & G1 & _). rewrite X in X1. injection X1 as <-.
  split; [exact (mno_race g' t t' c k c' k' e e' l wr wr' G1 ne N N' C C')|].
  exact (mno_race g' t' t c' k' c k e' e l wr' wr G1 (not_eq_sym ne) N' N C' C).
Qed.

(** A matrix that no thread may write, directly or through its memory, keeps its size,
    layout and elements. *)
Theorem untouchable_keeps_matrix {A} (g : mconfig T A) order g' o : mwell_behaved g ->
  untouchable (map snd (mthreads g)) (heap (mshared g)) o -> mtogether order g = Some g' ->
  equal_matrix (mshared g) o (mshared g') o.
Proof. intros (W & S & H). apply muntouched. exact (mgood_of g W S H). Qed.

(** ** A thread alone is the sequential program of MHeapModel.v *)
Variable triv : bool.
Lemma macts_of {A} (ns : list (nat * bool)) P (J : A -> tenv -> mstate -> Prop) (p : mprog T A) m e s :
  agrN (minv ns P) J p m -> names e = ns -> P (handles e) (objs (heap s)) (dims s) -> macts_as e s p m.
Proof.
  intros H N HP. specialize (H e s (conj N HP)). unfold macts_as. destruct (malone p e s); auto. exact (proj1 H).
Qed.
Lemma tidy_hold (s : mstate) o : mtidy s o -> hold2 o o [] (objs (heap s)) (dims s).
Proof.
  intros H. assert (X : htidy o (objs (heap s)) (dims s)).
  { intros d D v Ob A. specialize (H v Ob A). unfold m_dim in H. rewrite <- nth_default_eq in H. unfold nth_default in H. now rewrite D in H. }
  split; exact X.
Qed.
Theorem mthread_sequence {A B} (p : mprog T A) (f : A -> mprog T B) e s : malone (qbind p f) e s =
  match malone p e s with
  | MReturns a e' s' => malone (f a) e' s'
  | MThrows x e' s' => MThrows x e' s'
  | MUndefined u => MUndefined u
  end.
Proof. apply malone_bind. Qed.
Theorem mthread_read (x : hexpr T) r c e (s : mstate) : mknown (names e) x ->
  macts_as e s (q_read x r c) (h_read (mresolve (names e) x) r c).
Proof. intros Kx. eapply (macts_of _ (fun _ _ _ => True)); [eapply agrN_read|reflexivity|exact I]; eauto. Qed.
Theorem mthread_put i o r c (x : T) e (s : mstate) : nth_error (names e) i = Some (o, true) ->
  macts_as e s (q_put i r c x) (h_put o r c x).
Proof. intros Hi. eapply (macts_of _ (fun _ _ _ => True)); [eapply agrN_put|reflexivity|exact I]; eauto. Qed.
Theorem mthread_assign i o (x : hexpr T) e (s : mstate) : nth_error (names e) i = Some (o, true) -> mknown (names e) x -> mtidy s o ->
  macts_as e s (q_assign triv i x) (h_assign triv o (mresolve (names e) x)).
Proof. intros Hi Kx Td. eapply macts_of; [eapply (agrN_assign _ triv i o o)|reflexivity|apply (tidy_hold s o Td)]; eauto. Qed.
Theorem mthread_compound op i o (x : hexpr T) e (s : mstate) : nth_error (names e) i = Some (o, true) -> mknown (names e) x -> mtidy s o ->
  macts_as e s (q_compound triv op i x) (h_compound triv op o (mresolve (names e) x)).
Proof. intros Hi Kx Td. eapply macts_of; [eapply (agrN_compound _ triv op i o o)|reflexivity|apply (tidy_hold s o Td)]; eauto. Qed.
Theorem mthread_scale op i o (k : T) e (s : mstate) : nth_error (names e) i = Some (o, true) ->
  macts_as e s (q_scale op i k) (h_scale op o k).
Proof. intros Hi. eapply (macts_of _ (fun _ _ _ => True)); [eapply agrN_scale|reflexivity|exact I]; eauto. Qed.
Theorem mthread_generate i o (f : nat -> nat -> T) e (s : mstate) : nth_error (names e) i = Some (o, true) ->
  macts_as e s (q_generate i f) (h_generate o f).
Proof. intros Hi. eapply (macts_of _ (fun _ _ _ => True)); [eapply agrN_generate|reflexivity|exact I]; eauto. Qed.
Theorem mthread_list ex i o (l : list T) e (s : mstate) : nth_error (names e) i = Some (o, true) ->
  macts_as e s (q_list ex i l) (h_assign_list ex o l).
Proof. intros Hi. eapply (macts_of _ (fun _ _ _ => True)); [eapply agrN_list|reflexivity|exact I]; eauto. Qed.
Theorem mthread_resize i o r c e (s : mstate) : nth_error (names e) i = Some (o, true) -> mtidy s o ->
  macts_as e s (q_resize triv i r c) (h_resize triv o r c).
Proof. intros Hi Td. eapply macts_of; [eapply (agrN_resize _ triv i o o)|reflexivity|apply (tidy_hold s o Td)]; eauto. Qed.
Theorem mthread_resize_fast i o r c e (s : mstate) : nth_error (names e) i = Some (o, true) -> mtidy s o ->
  macts_as e s (q_resize_fast triv i r c) (h_resize_fast triv o r c).
Proof. intros Hi Td. eapply macts_of; [eapply (agrN_resize_fast _ triv i o o)|reflexivity|apply (tidy_hold s o Td)]; eauto. Qed.
Theorem mthread_move i j o1 o2 e (s : mstate) : nth_error (names e) i = Some (o1, true) -> nth_error (names e) j = Some (o2, true) ->
  macts_as e s (q_move_assign i j) (h_move_assign o1 o2).
Proof. intros Hi Hj. eapply (macts_of _ (fun _ _ _ => True)); [eapply agrN_move|reflexivity|exact I]; eauto. Qed.
Theorem mthread_destroy i o e (s : mstate) : nth_error (names e) i = Some (o, true) -> mtidy s o ->
  macts_as e s (q_dtor triv i) (h_dtor triv o).
Proof. intros Hi Td. eapply macts_of; [eapply (agrN_dtor _ triv i o o)|reflexivity|apply (tidy_hold s o Td)]; eauto. Qed.

(** construction: the new matrix gets the next name; after an exception there is no matrix
    (MHeapModel.v forgets the object, the thread's list keeps a dead entry) *)
Definition forget_last (s : mstate) : mstate := MSt (drop_last (heap s)) (removelast (dims s)).
Definition mconstructs (l : layout) (body : nat -> mprog T unit) (hbody : nat -> N T unit) (e : tenv) (s : mstate) : Prop :=
  let o := length (objs (heap s)) in
  match malone (q_ctor l body) e s with
  | MReturns i e' s' => h_ctor l hbody (mwith_sched s (tsched e)) = NOk o (mwith_sched s' (tsched e')) /\
                        i = length (names e) /\ names e' = names e ++ [(o, true)]
  | MThrows x e' s' => h_ctor l hbody (mwith_sched s (tsched e)) = NThrow x (mwith_sched (forget_last s') (tsched e'))
  | MUndefined u => h_ctor l hbody (mwith_sched s (tsched e)) = NUB u
  end.
Lemma mconstructs_of l body hbody e (s : mstate) (J : tenv -> mstate -> Prop) : let o := length (objs (heap s)) in
  length (dims s) = o -> mplain (body (length (names e))) ->
  agrN (minv (names e ++ [(o, true)]) (hold2 o o)) (fun _ => J) (body (length (names e))) (hbody o) ->
  mconstructs l body hbody e s.
Proof.
  intros o W Pl Ag. pose proof (malone_ctor l body hbody e s o J W Pl) as C. fold o in C. unfold mconstructs.
  assert (Ht : htidy o (objs (heap s)) (dims s)) by (intros d D; apply nth_error_lt in D; lia).
  specialize (C Ht Ag). destruct (malone (q_ctor l body) e s) as [i e' s'|x e' s'|u]; auto.
  destruct C as (C1 & C2 & C3 & _). auto.
Qed.
Theorem mthread_construct_size l r c e (s : mstate) : length (dims s) = length (objs (heap s)) ->
  mconstructs l (fun i => q_resize_fast triv i r c) (fun o => h_resize_fast triv o r c) e s.
Proof. intros W. eapply mconstructs_of; [exact W|apply mplain_resize_fast|apply agrN_resize_fast, name_snoc]. Qed.
Theorem mthread_construct_expr l (x : hexpr T) e (s : mstate) : length (dims s) = length (objs (heap s)) -> mknown (names e) x ->
  mconstructs l (fun i => q_assign triv i x) (fun o => h_assign triv o (mresolve (names e) x)) e s.
Proof.
  intros W K. eapply mconstructs_of; [exact W|apply mplain_assign|].
  destruct (mknown_snoc (names e) x (length (objs (heap s)), true) K) as [K' <-]. apply agrN_assign; auto using name_snoc.
Qed.
(** matrix(rows, cols, e0, eN...) and matrix(rows, cols, array) *)
Theorem mthread_construct_elements ex l r c (es : list T) e (s : mstate) : length (dims s) = length (objs (heap s)) ->
  mconstructs l (fun i => qbind (q_resize_fast triv i r c) (fun _ => q_list ex i es))
                (fun o => bindN (h_resize_fast triv o r c) (fun _ => h_assign_list ex o es)) e s.
Proof.
  intros W. eapply mconstructs_of; [exact W|apply mplain_bind; [apply mplain_resize_fast|intros _; apply mplain_list]|].
  eapply agrN_bind; [apply agrN_resize_fast, name_snoc|intros ?]. apply agrN_list, name_snoc.
Qed.
Theorem mthread_construct_move l j o2 e (s : mstate) : length (dims s) = length (objs (heap s)) -> nth_error (names e) j = Some (o2, true) ->
  mconstructs l (fun i => q_move_assign i j) (fun o => h_move_assign o o2) e s.
Proof.
  intros W Hj. eapply (mconstructs_of _ _ _ _ _ (fun e0 _ => names e0 = names e ++ [(length (objs (heap s)), true)])); [exact W|apply mplain_move|]. apply agrN_move; [apply name_snoc|].
  rewrite nth_error_app1; auto. eapply nth_error_lt; eauto.
Qed.
(** in-place transposition of a resizable matrix, with its local copy; when the copy cannot
    be made the thread's list keeps a dead entry *)
Theorem mthread_transpose i o e (s : mstate) : length (dims s) = length (objs (heap s)) ->
  nth_error (names e) i = Some (o, true) -> mtidy s o ->
  match malone (q_transpose triv i) e s with
  | MReturns _ e' s' => h_transpose triv o (mwith_sched s (tsched e)) = NOk tt (mwith_sched s' (tsched e'))
  | MThrows x e' s' => h_transpose triv o (mwith_sched s (tsched e)) = NThrow x (mwith_sched s' (tsched e')) \/
                       h_transpose triv o (mwith_sched s (tsched e)) = NThrow x (mwith_sched (forget_last s') (tsched e'))
  | MUndefined u => h_transpose triv o (mwith_sched s (tsched e)) = NUB u
  end.
Proof.
  intros W Hi Td. pose proof (malone_transpose triv i o e s W Hi (proj1 (tidy_hold s o Td))) as M. unfold acts_up_to_dead in M.
  destruct (malone (q_transpose triv i) e s) as [[] e' s'|x e' s'|u]; exact M.
Qed.
(** the product: a new matrix, the local result of the function *)
Theorem mthread_product {O : Ops T} l i1 i2 o1 o2 w1 w2 e (s : mstate) : length (dims s) = length (objs (heap s)) ->
  nth_error (names e) i1 = Some (o1, w1) -> nth_error (names e) i2 = Some (o2, w2) ->
  let o := length (objs (heap s)) in
  match malone (q_product triv l i1 i2) e s with
  | MReturns i e' s' => h_product triv l o1 o2 (mwith_sched s (tsched e)) = NOk o (mwith_sched s' (tsched e')) /\
                        i = length (names e) /\ names e' = names e ++ [(o, true)]
  | MThrows x e' s' => h_product triv l o1 o2 (mwith_sched s (tsched e)) = NThrow x (mwith_sched s' (tsched e'))
  | MUndefined u => h_product triv l o1 o2 (mwith_sched s (tsched e)) = NUB u
  end.
Proof. intros W H1 H2. exact (malone_product triv l i1 i2 o1 o2 w1 w2 e s W H1 H2). Qed.
End Threads.

(** ** Cases *)
(** three matrices of integers: 0 = (1 2; 3 4; 5 6) by rows, which both threads read;
    1 = (10 20), by columns, which the first thread writes; 2 = (7 7; 7 7; 7 7) by rows,
    which the second one writes *)
Definition mworld : mstate Z :=
  MSt (St [Live [Some 1; Some 2; Some 3; Some 4; Some 5; Some 6]; Live [Some 10; Some 20]; Live (repeat (Some 7) 6)]%Z
          [Some (VObj KAllocated (Some (0, 0)) 6); Some (VObj KAllocated (Some (1, 0)) 2); Some (VObj KAllocated (Some (2, 0)) 6)] [])
      [Dim 3 2 row_major; Dim 1 2 col_major; Dim 3 2 row_major].
Definition menv (own : nat) (sch : list bool) : tenv := TE [(0, false); (own, true)] [] sch.
(** first thread: m1 = m0 + m0 (it grows), a local transposed copy t of it, the product
    m0 t, and the end of both *)
Definition mworker1 : mprog Z unit :=
  qbind (q_assign false 1 (HBin Z.add (HObj 0) (HObj 0))) (fun _ =>
  qbind (q_ctor row_major (fun i => q_assign false i (HTrans (HObj 1)))) (fun t =>
  qbind (q_product false row_major 0 t) (fun p =>
  qbind (q_get p 2 1) (fun x =>
  qbind (q_dtor false p) (fun _ => qbind (q_dtor false t) (fun _ => q_put 1 0 0 x)))))).
(** second thread: m2 -= m0, m2.transpose(), and a resize whose allocation fails *)
Definition mworker2 : mprog Z unit :=
  qbind (q_compound false Z.sub 1 (HObj 0)) (fun _ =>
  qbind (q_transpose false 1) (fun _ => q_resize false 1 10%Z 10%Z)).
Definition mworkers : mconfig Z unit := MConfig [(mworker1, menv 1 []); (mworker2, menv 2 [true; false])] mworld.

Example mworkers_well_behaved : mwell_behaved mworkers.
Proof.
  split; [reflexivity|]. split; [split|].
  - intros t t' e e' i j o w. destruct t as [|[|t]]; simpl; [| |destruct t; discriminate]; intros [= <-];
      (destruct t' as [|[|t']]; simpl; [| |destruct t'; discriminate]); intros [= <-];
      (destruct i as [|[|i]]; simpl; [discriminate| |destruct i; discriminate]); intros [= <-];
      (destruct j as [|[|j]]; simpl; [discriminate| |destruct j; discriminate]); try discriminate; auto.
  - intros t t' e e' x y b. destruct t as [|[|t]]; simpl; [| |destruct t; discriminate]; intros [= <-];
      (destruct t' as [|[|t']]; simpl; [| |destruct t'; discriminate]); intros [= <-];
      (destruct x as [[|[|i]]|[|h]]; simpl;
        [intros [? ?]; discriminate| |intros [? E]; destruct i; discriminate E|intros _ [? ?]; discriminate|intros _ [? ?]; discriminate]);
      intros _ (o & w & v & off & [= <- <-] & [= <-] & [= <- <-] & _);
      (destruct y as [[|[|j]]|[|h]]; simpl;
        [| |intros (? & ? & ? & ? & E & _); destruct j; discriminate E|intros [? ?]; discriminate|intros [? ?]; discriminate]);
      intros (o' & w' & v' & off' & [= <- <-] & [= <-] & E & _); try discriminate E; auto.
  - intros t p e. destruct t as [|[|t]]; simpl; [| |destruct t; discriminate]; intros [= <- <-];
      (split; [|vm_compute; exact I]); (split; [|split]).
    1,4: intros [|[|i]] o w; simpl; try (destruct i; discriminate); intros [= <- <-]; lia.
    1,3: intros [|[|i]] o w v b off; simpl; try (destruct i; discriminate); intros [= <- <-] [= <-] [= <- <-]; simpl; lia.
    all: intros [|h] b; discriminate.
Qed.
Definition malternate (n : nat) : list nat := concat (repeat [0; 1] n).
Definition mshow (s : mstate Z) (o : nat) : nat * nat * list (option Z) :=
  let m := matrix_of s o in
  (fr m, fc m, concat (map (fun i => map (fun j => fe m i j) (seq 0 (fc m))) (seq 0 (fr m)))).
Definition mseen {A} (g : option (mconfig Z A)) (os : list nat) :=
  option_map (fun g => (map (fun p => match fst p with QThrow x => Some x | _ => None end) (mthreads g), map (mshow (mshared g)) os)) g.
(** both threads need many turns; the second ends with bad_alloc in both orders *)
Example mworkers_turns : mturns mworker1 (menv 1 []) mworld = 214 /\ mturns mworker2 (menv 2 [true; false]) mworld = 118.
Proof. vm_compute. auto. Qed.
Example mworkers_end :
  mseen (mtogether (malternate 220) mworkers) [0; 1; 2] =
    Some ([None; Some EBadAlloc],
          [(3, 2, [Some 1; Some 2; Some 3; Some 4; Some 5; Some 6]%Z);
           (3, 2, [Some 78; Some 4; Some 6; Some 8; Some 10; Some 12]%Z);
           (2, 3, [Some 6; Some 4; Some 2; Some 5; Some 3; Some 1]%Z)]) /\
  mseen (mtogether (repeat 1 120 ++ repeat 0 220) mworkers) [0; 1; 2] = mseen (mtogether (malternate 220) mworkers) [0; 1; 2].
Proof. vm_compute. auto. Qed.
(** the shared matrix may not be written by anybody *)
Example mworkers_shared : untouchable (map snd (mthreads mworkers)) (heap mworld) 0.
Proof.
  split; [simpl; lia|]. split.
  - intros t e i. destruct t as [|[|t]]; simpl; [| |destruct t; discriminate]; intros [= <-];
      (destruct i as [|[|i]]; simpl; [discriminate|discriminate|destruct i; discriminate]).
  - intros v b off [= <-] [= <- <-]. split; [simpl; lia|]. intros t e x.
    destruct t as [|[|t]]; simpl; [| |destruct t; discriminate]; intros [= <-];
      (destruct x as [[|[|i]]|[|h]]; simpl;
        [intros [? ?]; discriminate| |intros [? E]; destruct i; discriminate E|intros _ [? ?]; discriminate|intros _ [? ?]; discriminate]);
      intros _ (o & w & v & off & [= <- <-] & [= <-] & E & _); discriminate E.
Qed.
(** the conditions of the sequential theorems hold of the first thread *)
Example mworker1_sequential : length (dims mworld) = length (objs (heap mworld)) /\
  nth_error (names (menv 1 [])) 1 = Some (1, true) /\
  mknown (names (menv 1 [])) (HBin Z.add (HObj 0) (HObj 0)) /\ mtidy mworld 1.
Proof. split; [reflexivity|]. split; [reflexivity|]. split; [simpl; lia|]. intros v [= <-]. discriminate. Qed.
(** and each outcome of a product occurs: it returns, an allocation fails, the sizes do not fit *)
Example product_outcomes :
  (exists e s, malone (q_product false row_major 1 0) (TE [(0, false); (1, false)] [] []) (MSt (heap mworld) [Dim 2 3 row_major; Dim 1 2 col_major; Dim 3 2 row_major]) = MReturns 2 e s /\
     mshow s 3 = (1, 3, [Some 90; Some 120; Some 150]%Z)) /\
  (exists e s, malone (q_product false row_major 1 0) (TE [(0, false); (1, false)] [] [false]) (MSt (heap mworld) [Dim 2 3 row_major; Dim 1 2 col_major; Dim 3 2 row_major]) = MThrows EBadAlloc e s) /\
  (exists e s, malone (q_product false row_major 1 0) (TE [(0, false); (1, false)] [] []) mworld = MThrows EIncompatibleMatrixInnerSize e s).
Proof.
  split; [eexists; eexists; split; vm_compute; reflexivity|]. split; eexists; eexists; vm_compute; reflexivity.
Qed.

(** The condition is needed.  Two threads that add to the same matrix, each defined alone:
    one order gives 10 + 1 + 2, another loses an addition. *)
Definition mboth_write : mconfig Z unit :=
  MConfig [(q_compound true Z.add 0 (HTmp 1 2 (fun _ j => if Nat.eqb j 0 then 1 else 0)%Z), TE [(1, true)] [] []);
           (q_compound true Z.add 0 (HTmp 1 2 (fun _ j => if Nat.eqb j 0 then 2 else 0)%Z), TE [(1, true)] [] [])] mworld.
Definition mdefined_alone {A} (g : mconfig Z A) : Prop :=
  forall t p e, nth_error (mthreads g) t = Some (p, e) -> meaningful (heap (mshared g)) e /\ mwell_defined (malone p e (mshared g)).
Ltac small_meaningful :=
  split; [|split];
  [intros [|[|i]] o w; simpl; try (destruct i; discriminate); try discriminate; intros [= <- <-]; lia
  |intros [|[|i]] o w v b off; simpl; try (destruct i; discriminate); try discriminate; intros [= <- <-] [= <-] [= <- <-]; simpl; lia
  |intros [|h] b; discriminate].
Theorem writers_of_one_matrix_refuted : mdefined_alone mboth_write /\
  exists order1 order2 g1 g2, mtogether order1 mboth_write = Some g1 /\ mtogether order2 mboth_write = Some g2 /\
    Forall (fun p => mended (fst p)) (mthreads g1) /\ Forall (fun p => mended (fst p)) (mthreads g2) /\
    mshow (mshared g1) 1 = (1, 2, [Some 13; Some 20]%Z) /\ mshow (mshared g2) 1 <> (1, 2, [Some 13; Some 20]%Z).
Proof.
  split.
  - intros t p e. destruct t as [|[|t]]; simpl; [| |destruct t; discriminate]; intros [= <- <-];
      (split; [small_meaningful|vm_compute; exact I]).
  - eexists (repeat 0 40 ++ repeat 1 40), (malternate 40), _, _. split; [vm_compute; reflexivity|].
    split; [vm_compute; reflexivity|]. split; [repeat constructor|]. split; [repeat constructor|].
    split; [reflexivity|]. vm_compute. discriminate.
Qed.
(** One thread resizes a matrix while another reads it: undefined for some order, although
    each is defined alone. *)
Definition mresize_and_read : mconfig Z Z :=
  MConfig [(qbind (q_resize true 0 5%Z 5%Z) (fun _ => QRet 0%Z), TE [(0, true)] [] []);
           (q_get 0 2 1, TE [(0, false)] [] [])] mworld.
Theorem reading_during_matrix_resize_refuted : mdefined_alone mresize_and_read /\
  exists order, mtogether order mresize_and_read = None.
Proof.
  split.
  - intros t p e. destruct t as [|[|t]]; simpl; [| |destruct t; discriminate]; intros [= <- <-];
      (split; [small_meaningful|vm_compute; exact I]).
  - exists (repeat 0 16 ++ [1; 1]). vm_compute. reflexivity.
Qed.
(** One thread transposes a 3 x 2 matrix in place while another reads element (2,0): the
    reader may see the old size and then the new element, without anything undefined. *)
Definition mtranspose_and_read : mconfig Z Z :=
  MConfig [(qbind (q_transpose true 0) (fun _ => QRet 0%Z), TE [(0, true)] [] []);
           (q_get 0 2 0, TE [(0, false)] [] [])] mworld.
Theorem reading_during_transpose_refuted : mdefined_alone mtranspose_and_read /\
  exists order g e, mtogether order mtranspose_and_read = Some g /\
    nth_error (mthreads g) 1 = Some (QRet 4%Z, e) /\
    (exists e' s', malone (q_get 0 2 0) (TE [(0, false)] [] []) mworld = MReturns 5%Z e' s').
Proof.
  split.
  - intros t p e. destruct t as [|[|t]]; simpl; [| |destruct t; discriminate]; intros [= <- <-];
      (split; [small_meaningful|vm_compute; exact I]).
  - eexists ([1] ++ repeat 0 200 ++ [1]), _, _. split; [vm_compute; reflexivity|]. split; [reflexivity|].
    eexists; eexists; vm_compute; reflexivity.
Qed.

Print Assumptions matrix_threads_do_not_interfere.
Print Assumptions matrix_order_is_irrelevant.
Print Assumptions matrix_no_data_race.
Print Assumptions untouchable_keeps_matrix.
Print Assumptions mthread_sequence.
Print Assumptions mthread_read.
Print Assumptions mthread_put.
Print Assumptions mthread_assign.
Print Assumptions mthread_compound.
Print Assumptions mthread_scale.
Print Assumptions mthread_generate.
Print Assumptions mthread_list.
Print Assumptions mthread_resize.
Print Assumptions mthread_resize_fast.
Print Assumptions mthread_move.
Print Assumptions mthread_destroy.
Print Assumptions mthread_construct_size.
Print Assumptions mthread_construct_expr.
Print Assumptions mthread_construct_elements.
Print Assumptions mthread_construct_move.
Print Assumptions mthread_transpose.
Print Assumptions mthread_product.
Print Assumptions writers_of_one_matrix_refuted.
Print Assumptions reading_during_matrix_resize_refuted.
Print Assumptions reading_during_transpose_refuted.
