(** A thread that runs alone does what HeapModel.v says: the programs of ConcModel.v,
    access by access, have the outcome of the operations they stand for. *)
From Coq Require Import List ZArith Bool Arith Lia.
From Verif Require Import Base BaseFacts HeapModel HeapSpec ConcModel ConcSpec ConcProofs.
Import ListNotations.

Section Refine.
Context {T : Type}.
Notation state := (state T).
Notation cell := (cell T).
Notation prog := (prog T).
Notation vexpr := (vexpr T).

(** ** Rules *)
Definition agr {A} (I : tenv -> state -> Prop) (J : A -> tenv -> state -> Prop) (p : prog A) (m : M T A) : Prop :=
  forall e s, I e s ->
  match alone p e s with
  | Returns a e' s' => m (with_sched s (tsched e)) = ROk a (with_sched s' (tsched e')) /\ J a e' s'
  | Throws x e' s' => m (with_sched s (tsched e)) = RThrow x (with_sched s' (tsched e'))
  | Undefined u => m (with_sched s (tsched e)) = RUB u
  end.
Lemma alone_bind {A B} (p : prog A) (f : A -> prog B) : forall e s, alone (pbind p f) e s =
  match alone p e s with
  | Returns a e' s' => alone (f a) e' s'
  | Throws x e' s' => Throws x e' s'
  | Undefined u => Undefined u
  end.
Proof.
  induction p as [a|x|u|c k IH]; intros e s; simpl; auto.
  destruct (exec c e s) as [[a e'] s'| |]; auto.
Qed.
Lemma agr_bind {A B} I J K (p : prog A) m (f : A -> prog B) g : agr I J p m -> (forall a, agr (J a) K (f a) (g a)) ->
  agr I K (pbind p f) (bindM m g).
Proof.
  intros H1 H2 e s HI. rewrite alone_bind. specialize (H1 e s HI). unfold bindM.
  destruct (alone p e s) as [a e' s'|x e' s'|u].
  - destruct H1 as [-> HJ]. exact (H2 a e' s' HJ).
  - now rewrite H1.
  - now rewrite H1.
Qed.
Lemma agr_ret {A} (I : tenv -> state -> Prop) (J : A -> tenv -> state -> Prop) a : (forall e s, I e s -> J a e s) -> agr I J (PRet a) (ret a).
Proof. intros H e s HI. simpl. split; auto. Qed.
Lemma agr_ub {A} I (J : A -> tenv -> state -> Prop) u : agr I J (PUB u) (ubM u).
Proof. intros e s HI. reflexivity. Qed.
Lemma agr_weak {A} (I I' : tenv -> state -> Prop) (J J' : A -> tenv -> state -> Prop) p m :
  (forall e s, I' e s -> I e s) -> (forall a e s, J a e s -> J' a e s) -> agr I J p m -> agr I' J' p m.
Proof.
  intros H1 H2 H e s HI. specialize (H e s (H1 _ _ HI)). destruct (alone p e s); auto. destruct H; auto.
Qed.
Lemma agr_ext {A} I (J : A -> tenv -> state -> Prop) p m m' : (forall s, m s = m' s) -> agr I J p m -> agr I J p m'.
Proof. intros E H e s HI. specialize (H e s HI). rewrite <- E. exact H. Qed.
Lemma agr_require I b x : agr I (fun _ e s => I e s /\ b = true) (prequire b x) (requireM b x).
Proof. intros e s HI. destruct b; simpl; auto. Qed.
Lemma agr_for I n : forall i f g, (forall k, agr I (fun _ => I) (f k) (g k)) -> agr I (fun _ => I) (pfor n i f) (forM n i g).
Proof.
  induction n as [|n IH]; intros i f g H; simpl.
  - now apply agr_ret.
  - eapply agr_bind; [apply H|]. intros ?. now apply IH.
Qed.

(** ** Accesses *)
Section Names.
Variable ns : list (nat * bool).
(** conditions that do not speak of memory *)
Definition pr := list (option nat) -> list (option vobj) -> Prop.
Definition inv (P : pr) (e : tenv) (s : state) : Prop :=
  names e = ns /\ P (handles e) (objs s).
Lemma nth_obj_of i : i < length ns -> exists w, nth_error ns i = Some (obj_of ns i, w).
Proof.
  intros H. unfold obj_of. destruct (nth_error ns i) as [[o w]|] eqn:E; eauto.
  apply nth_error_None in E. lia.
Qed.
Lemma named_at e s i : names e = ns -> i < length ns -> @named T e i s = ROk (obj_of ns i) s.
Proof. intros N H. unfold named. rewrite N. destruct (nth_obj_of i H) as [w ->]. reflexivity. Qed.
Lemma writable_at e s i o : names e = ns -> nth_error ns i = Some (o, true) -> @writable T e i s = ROk o s.
Proof. intros N H. unfold writable. now rewrite N, H. Qed.
Lemma obj_of_at i o w : nth_error ns i = Some (o, w) -> obj_of ns i = o /\ i < length ns.
Proof. intros H. unfold obj_of. rewrite H. split; auto. eapply nth_error_lt; eauto. Qed.

Lemma agr_info {B} (P : pr) K i (f : kind * nat -> prog B) g : i < length ns ->
  (forall v, agr (inv (fun hs os => P hs os /\ nth_error os (obj_of ns i) = Some (Some v))) K (f (okind v, olen v)) (g v)) ->
  agr (inv P) K (pbind (act (CInfo i)) f) (bindM (get_obj (obj_of ns i)) g).
Proof.
  intros Hi H e s [N HP]. cbn [act pbind alone exec]. unfold bindM. rewrite (named_at e s i N Hi).
  unfold get_obj. cbn [objs with_sched].
  destruct (nth_error (objs s) (obj_of ns i)) as [[v|]|] eqn:Ob; auto.
  cbn [ret]. apply (H v e s). split; auto.
Qed.
Lemma agr_info' {B} (P : pr) K i o w (f : kind * nat -> prog B) g : nth_error ns i = Some (o, w) ->
  (forall v, agr (inv (fun hs os => P hs os /\ nth_error os o = Some (Some v))) K (f (okind v, olen v)) (g v)) ->
  agr (inv P) K (pbind (act (CInfo i)) f) (bindM (get_obj o) g).
Proof. intros Hi. destruct (obj_of_at i o w Hi) as [<- Hl]. now apply agr_info. Qed.
Lemma agr_cell (P : pr) i k v : i < length ns ->
  (forall hs os, P hs os -> nth_error os (obj_of ns i) = Some (Some v)) ->
  agr (inv P) (fun _ => inv P) (act (CCell i k))
    (match oaddr v with Some (b, off) => rd_cell b (off + k) | None => ubM UBMem end).
Proof.
  intros Hi Hv e s [N HP]. cbn [act alone exec]. unfold bindM. rewrite (named_at e s i N Hi).
  unfold get_obj. rewrite (Hv _ _ HP). destruct (oaddr v) as [[b off]|]; [|reflexivity].
  unfold rd_cell, get_block. cbn [blocks with_sched].
  destruct (nth_error (blocks s) b) as [[cs|]|]; auto. destruct (nth_error cs (off + k)); auto.
  split; [reflexivity|split; auto].
Qed.
Lemma agr_get (P : pr) i k : i < length ns -> agr (inv P) (fun _ => inv P) (t_get i k) (obj_get (obj_of ns i) k).
Proof.
  intros Hi e s [N HP]. unfold t_get. cbn [act alone pbind exec]. unfold obj_get, bindM. rewrite (named_at e s i N Hi).
  unfold get_obj. cbn [objs with_sched].
  destruct (nth_error (objs s) (obj_of ns i)) as [[v|]|]; auto. destruct (oaddr v) as [[b off]|]; [|reflexivity].
  unfold rd, bindM, rd_cell, get_block. cbn [blocks with_sched].
  destruct (nth_error (blocks s) b) as [[cs|]|]; auto. destruct (nth_error cs (off + k)) as [[x|]|]; auto.
  - split; [reflexivity|split; auto].
  - reflexivity.
Qed.
Lemma agr_get' (P : pr) i k o w : nth_error ns i = Some (o, w) -> agr (inv P) (fun _ => inv P) (t_get i k) (obj_get o k).
Proof. intros Hi. destruct (obj_of_at i o w Hi) as [<- Hl]. now apply agr_get. Qed.
Lemma agr_wr (P : pr) i k c o v : nth_error ns i = Some (o, true) ->
  (forall hs os, P hs os -> nth_error os o = Some (Some v)) ->
  agr (inv P) (fun _ => inv P) (act (CSet i k c))
    (match oaddr v with Some (b, off) => wr_cell b (off + k) c | None => ubM UBMem end).
Proof.
  intros Hi Hv e s [N HP]. cbn [act alone exec]. unfold bindM. rewrite (writable_at e s i o N Hi).
  unfold get_obj. rewrite (Hv _ _ HP). destruct (oaddr v) as [[b off]|]; [|reflexivity].
  unfold wr_cell, get_block, set_block. cbn [blocks with_sched].
  destruct (nth_error (blocks s) b) as [[cs|]|]; auto. destruct (list_put cs (off + k) c); auto.
  destruct (list_put (blocks s) b _); auto. split; [reflexivity|split; auto].
Qed.
Lemma agr_put (P : pr) i k x o : nth_error ns i = Some (o, true) -> agr (inv P) (fun _ => inv P) (t_put i k x) (obj_put o k x).
Proof.
  intros Hi e s [N HP]. unfold t_put. cbn [act alone exec]. unfold obj_put, bindM. rewrite (writable_at e s i o N Hi).
  unfold get_obj. cbn [objs with_sched].
  destruct (nth_error (objs s) o) as [[v|]|]; auto. destruct (oaddr v) as [[b off]|]; [|reflexivity].
  unfold wr_cell, get_block, set_block. cbn [blocks with_sched].
  destruct (nth_error (blocks s) b) as [[cs|]|]; auto. destruct (list_put cs (off + k) _); auto.
  destruct (list_put (blocks s) b _); auto. split; [reflexivity|split; auto].
Qed.
Lemma agr_fillb (P : pr) h k c b : (forall hs os, P hs os -> nth_error hs h = Some (Some b)) ->
  agr (inv P) (fun _ => inv P) (act (CFill h k c)) (wr_cell b k c).
Proof.
  intros Hh e s [N HP]. cbn [act alone exec]. unfold bindM, handle. rewrite (Hh _ _ HP).
  unfold wr_cell, get_block, set_block. cbn [blocks with_sched].
  destruct (nth_error (blocks s) b) as [[cs|]|]; auto. destruct (list_put cs k c); auto.
  destruct (list_put (blocks s) b _); auto. split; [reflexivity|split; auto].
Qed.
Lemma agr_free (P : pr) i n o v : nth_error ns i = Some (o, true) ->
  (forall hs os, P hs os -> nth_error os o = Some (Some v)) ->
  agr (inv P) (fun _ => inv P) (act (CFree i n)) (dealloc (oaddr v) n).
Proof.
  intros Hi Hv e s [N HP]. cbn [act alone exec]. unfold bindM. rewrite (writable_at e s i o N Hi).
  unfold get_obj. rewrite (Hv _ _ HP). unfold dealloc, get_block, set_block. cbn [blocks with_sched].
  destruct (oaddr v) as [[b off]|]; [|split; [reflexivity|split; auto]].
  destruct (nth_error (blocks s) b) as [[cs|]|]; auto. destruct (_ && _); auto.
  destruct (list_put (blocks s) b _); auto. split; [reflexivity|split; auto].
Qed.
(** allocation: the new block gets a name of the thread *)
Lemma agr_alloc {B} (P : pr) K n (f : nat -> prog B) g :
  (forall h b, agr (inv (fun hs os => (exists hs0, hs = hs0 ++ [Some b] /\ length hs0 = h /\ P hs0 os))) K (f h) (g b)) ->
  agr (inv P) K (pbind (t_alloc n) f) (bindM (alloc n) g).
Proof.
  intros H e s [N HP]. unfold t_alloc. rewrite alone_bind. cbn [act pbind alone exec]. unfold bindM, alloc.
  cbn [sched with_sched].
  destruct (tsched e) as [|[|] r] eqn:Ts; cbn [alone tl]; auto.
  - apply (H _ _ (TE (names e) (handles e ++ [Some (length (blocks s))]) [])
             (St (blocks s ++ [Live (repeat None n)]) (objs s) (sched s))).
    split; auto. exists (handles e); auto.
  - apply (H _ _ (TE (names e) (handles e ++ [Some (length (blocks s))]) r)
             (St (blocks s ++ [Live (repeat None n)]) (objs s) (sched s))).
    split; auto. exists (handles e); auto.
Qed.
Lemma agr_attach (P : pr) (K : unit -> tenv -> state -> Prop) i h n o b v : nth_error ns i = Some (o, true) ->
  (forall hs os, P hs os -> nth_error hs h = Some (Some b) /\ nth_error os o = Some (Some v)) ->
  (forall e s, inv (fun _ _ => True) e s -> K tt e s) ->
  agr (inv P) K (act (CAttach i h n)) (set_obj o (Some (VObj (okind v) (Some (b, 0)) n))).
Proof.
  intros Hi Hv HK e s [N HP]. cbn [act alone exec]. unfold bindM. rewrite (writable_at e s i o N Hi).
  unfold handle. destruct (Hv _ _ HP) as [-> Ob]. unfold get_obj. rewrite Ob. unfold set_obj. cbn [objs with_sched blocks sched].
  destruct (list_put (objs s) o _); auto. split; [reflexivity|]. apply HK. split; auto.
Qed.

(** ** Expressions *)
Lemma agr_size (P : pr) x : known ns x -> agr (inv P) (fun _ => inv P) (t_size x) (e_size (resolve ns x)).
Proof.
  induction x as [i|l|f x IH|f x IH y _|f x IH k|m d x IHx y IHy|x IH k]; simpl; intros Kn; auto.
  - apply agr_info; auto. intros v. apply agr_ret. intros e s [N [HP _]]; split; auto.
  - now apply agr_ret.
  - apply IH. tauto.
  - now apply agr_ret.
  - eapply agr_bind; [apply IH; auto|]. intros n. now apply agr_ret.
Qed.
Lemma agr_read (P : pr) x : known ns x -> forall k, agr (inv P) (fun _ => inv P) (t_read x k) (e_get (resolve ns x) k).
Proof.
  induction x as [i|l|f x IH|f x IH y IHy|f x IH c|m d x IHx y IHy|x IH c]; cbn [known t_read resolve e_get]; intros Kn k.
  - now apply agr_get.
  - destruct (nth_error l k); [now apply agr_ret|apply agr_ub].
  - eapply agr_bind; [apply IH; auto|]. intros a. now apply agr_ret.
  - destruct Kn. eapply agr_bind; [apply IH; auto|]. intros a.
    eapply agr_bind; [apply IHy; auto|]. intros b. now apply agr_ret.
  - eapply agr_bind; [apply IH; auto|]. intros a. now apply agr_ret.
  - destruct Kn as [K1 K2].
    eapply agr_bind; [apply IHx; auto|]. intros a. eapply agr_bind; [apply IHy; auto|]. intros b.
    eapply agr_bind; [apply IHx; auto|]. intros c. eapply agr_bind; [apply IHy; auto|]. intros e.
    now apply agr_ret.
  - now apply IH.
Qed.
Lemma agr_req (P : pr) b x : agr (inv P) (fun _ => inv P) (prequire b x) (requireM b x).
Proof. eapply agr_weak; [| |apply (agr_require (inv P))]; [auto|]. intros a e s [H _]; exact H. Qed.
Lemma agr_build (P : pr) x : known ns x -> agr (inv P) (fun _ => inv P) (t_build x) (e_build (resolve ns x)).
Proof.
  induction x as [i|l|f x IH|f x IH y IHy|f x IH c|m d x IHx y IHy|x IH c]; cbn [known t_build resolve e_build]; intros Kn; auto.
  - apply agr_info; auto. intros v. apply agr_ret. intros e s [N [HP _]]; split; auto.
  - now apply agr_ret.
  - destruct Kn. eapply agr_bind; [apply IH; auto|]. intros a. eapply agr_bind; [apply IHy; auto|]. intros b.
    eapply agr_bind; [apply agr_size; auto|]. intros n1. eapply agr_bind; [apply agr_size; auto|]. intros n2.
    apply agr_req.
  - destruct Kn. eapply agr_bind; [apply IHx; auto|]. intros a. eapply agr_bind; [apply IHy; auto|]. intros b.
    eapply agr_bind; [apply agr_size; auto|]. intros n1. eapply agr_bind; [apply agr_req|]. intros ?.
    eapply agr_bind; [apply agr_size; auto|]. intros n2. apply agr_req.
Qed.

(** ** Storage *)
Variable triv : bool.
Lemma agr_destruct (P : pr) i o v : nth_error ns i = Some (o, true) -> (oaddr v = None -> olen v = 0) ->
  (forall hs os, P hs os -> nth_error os o = Some (Some v)) ->
  agr (inv P) (fun _ => inv P) (t_destruct triv i (olen v)) (destruct_elems triv (oaddr v) (olen v)).
Proof.
  intros Hi Ht Hv. unfold t_destruct, destruct_elems. destruct triv; [now apply agr_ret|].
  destruct (oaddr v) as [[b off]|] eqn:Ad.
  - apply agr_for. intros k. pose proof (agr_wr P i k None o v Hi Hv) as H. now rewrite Ad in H.
  - rewrite (Ht eq_refl). now apply agr_ret.
Qed.
Definition hold (o : nat) : pr := fun hs os => tidy os o.
Definition top : pr := fun hs os => True.
Lemma agr_resize_fast i o n : nth_error ns i = Some (o, true) ->
  agr (inv (hold o)) (fun _ => inv top) (t_resize_fast triv i n) (resize_fast triv o n).
Proof.
  intros Hi. destruct (obj_of_at i o true Hi) as [Ho Hl]. unfold t_resize_fast, resize_fast.
  eapply agr_bind; [apply agr_req|]. intros ?.
  apply (agr_info' _ _ i o true); auto. intros v. cbn [snd].
  destruct (Z.eqb n (Z.of_nat (olen v))); [apply agr_ret; intros e s [N _]; split; auto; exact I|].
  apply agr_alloc. intros h b. match goal with |- agr (inv ?Q) _ _ _ => set (P := Q) end.
  assert (Pv : forall hs os, P hs os -> nth_error os o = Some (Some v)) by (intros hs os (? & _ & _ & _ & H); exact H).
  intros e s HI.
  assert (Tv : oaddr v = None -> olen v = 0).
  { destruct HI as [_ (hs0 & _ & _ & Td & Ob)]. exact (Td v Ob). }
  revert e s HI. change (agr (inv P) (fun _ => inv top)
    (pbind (t_destruct triv i (olen v)) (fun _ => pbind (act (CFree i (olen v))) (fun _ => act (CAttach i h (Z.to_nat n)))))
    (bindM (destruct_elems triv (oaddr v) (olen v)) (fun _ => bindM (dealloc (oaddr v) (olen v)) (fun _ =>
      set_obj o (Some (VObj (okind v) (Some (b, 0)) (Z.to_nat n))))))).
  eapply agr_bind; [apply (agr_destruct P i o v); auto|]. intros ?.
  eapply agr_bind; [apply (agr_free P i _ o v); auto|]. intros ?.
  apply (agr_attach P); auto.
  intros hs os (hs0 & -> & <- & _ & Ob). split; auto. rewrite nth_error_snoc. now destruct (Nat.eq_dec _ _).
Qed.
Lemma agr_resize i o n : nth_error ns i = Some (o, true) ->
  agr (inv (hold o)) (fun _ => inv top) (t_resize triv i n) (resize triv o n).
Proof.
  intros Hi. destruct (obj_of_at i o true Hi) as [Ho Hl]. unfold t_resize, resize.
  eapply agr_bind; [apply agr_req|]. intros ?.
  apply (agr_info' _ _ i o true); auto. intros v. cbn [snd].
  destruct (Z.eqb n (Z.of_nat (olen v))); [apply agr_ret; intros e s [N _]; split; auto; exact I|].
  apply agr_alloc. intros h b. match goal with |- agr (inv ?Q) _ _ _ => set (P := Q) end.
  assert (Pv : forall hs os, P hs os -> nth_error os o = Some (Some v)) by (intros hs os (? & _ & _ & _ & H); exact H).
  assert (Ph : forall hs os, P hs os -> nth_error hs h = Some (Some b)).
  { intros hs os (hs0 & -> & <- & _). rewrite nth_error_snoc. now destruct (Nat.eq_dec _ _). }
  intros e s HI.
  assert (Tv : oaddr v = None -> olen v = 0).
  { destruct HI as [_ (hs0 & _ & _ & Td & Ob)]. exact (Td v Ob). }
  revert e s HI.
  match goal with |- forall e s, _ -> match alone ?p _ _ with _ => _ end =>
    match goal with |- context [?m (with_sched _ _) = RUB _] => change (agr (inv P) (fun _ => inv top) p m) end end.
  eapply agr_bind; [apply (agr_destruct P i o v); auto|]. intros ?.
  destruct (oaddr v) as [[b0 off]|] eqn:Ad.
  - assert (A1 : agr (inv P) (fun _ => inv P)
       (pfor (Nat.min (olen v) (Z.to_nat n)) 0 (fun k => pbind (act (CCell i k)) (fun c : cell => act (CFill h k c))))
       (forM (Nat.min (olen v) (Z.to_nat n)) 0 (fun i0 => bindM (rd_cell b0 (off + i0)) (fun c => wr_cell b i0 c)))).
    { apply agr_for. intros k. pose proof (agr_cell P i k v Hl) as C. rewrite Ho, Ad in C.
      eapply agr_bind; [apply C; auto|]. intros c. now apply agr_fillb. }
    pose proof (agr_free P i (olen v) o v Hi Pv) as A2. rewrite Ad in A2.
    assert (A3 : agr (inv P) (fun _ => inv top) (act (CAttach i h (Z.to_nat n)))
              (set_obj o (Some (VObj (okind v) (Some (b, 0)) (Z.to_nat n))))).
    { apply (agr_attach P); auto. intros hs os HP; split; eauto. }
    eapply agr_ext; [|exact (agr_bind _ _ _ _ _ _ _ A1 (fun _ => agr_bind _ _ _ _ _ _ _ A2 (fun _ => A3)))].
    intros s. unfold bindM. destruct (forM _ 0 _ s); reflexivity.
  - rewrite (Tv eq_refl). cbn [Nat.min pfor pbind].
    eapply (agr_bind (inv P) (fun _ => inv P)).
    + pose proof (agr_free P i 0 o v Hi Pv) as A2. rewrite Ad in A2. exact A2.
    + intros ?. apply (agr_attach P); auto. intros hs os HP; split; eauto.
Qed.
Lemma inv_top (P : pr) e s : inv P e s -> inv top e s.
Proof. intros [N _]; split; auto. exact I. Qed.
Lemma agr_top {A} (P : pr) (p : prog A) m : agr (inv P) (fun _ => inv P) p m -> agr (inv P) (fun _ => inv top) p m.
Proof. apply agr_weak; auto. intros a; apply inv_top. Qed.
Lemma agr_check i o n x : nth_error ns i = Some (o, true) ->
  agr (inv (hold o)) (fun _ => inv top) (t_check_or_resize triv i n x) (check_or_resize triv o n x).
Proof.
  intros Hi. destruct (obj_of_at i o true Hi) as [Ho Hl]. unfold t_check_or_resize, check_or_resize.
  apply (agr_info' _ _ i o true); auto. intros v. cbn [fst snd].
  destruct (resizable (okind v)).
  - apply (agr_weak (inv (hold o)) _ (fun _ => inv top)); [|auto|now apply agr_resize]. intros e s [N [H _]]; split; auto.
  - apply agr_top, agr_req.
Qed.

(** ** The operations *)
Lemma agr_assign i o x : nth_error ns i = Some (o, true) -> known ns x ->
  agr (inv (hold o)) (fun _ => inv top) (t_assign triv i x) (assign triv o (resolve ns x)).
Proof.
  intros Hi Kx. destruct (obj_of_at i o true Hi) as [Ho Hl]. unfold t_assign, assign.
  eapply agr_bind; [now apply agr_build|]. intros ?. eapply agr_bind; [now apply agr_size|]. intros n.
  eapply agr_bind; [now apply agr_check|]. intros ?.
  apply (agr_info' _ _ i o true); auto. intros v. cbn [snd].
  apply agr_top, agr_for.
  intros k. eapply agr_bind; [now apply agr_read|]. intros y. now apply agr_put.
Qed.
Lemma agr_compound op i o x : nth_error ns i = Some (o, true) -> known ns x ->
  agr (inv (hold o)) (fun _ => inv top) (t_compound triv op i x) (compound triv op o (resolve ns x)).
Proof.
  intros Hi Kx. destruct (obj_of_at i o true Hi) as [Ho Hl]. unfold t_compound, compound.
  eapply agr_bind; [now apply agr_build|]. intros ?. eapply agr_bind; [now apply agr_size|]. intros n.
  eapply agr_bind; [now apply agr_check|]. intros ?.
  apply (agr_info' _ _ i o true); auto. intros v. cbn [snd].
  apply agr_top, agr_for.
  intros k. eapply agr_bind; [now apply (agr_get' _ i k o true)|]. intros z.
  eapply agr_bind; [now apply agr_read|]. intros y. now apply agr_put.
Qed.
Lemma agr_pairwise op i o x : nth_error ns i = Some (o, true) -> known ns x ->
  agr (inv top) (fun _ => inv top) (t_pairwise op i x) (pairwise op o (resolve ns x)).
Proof.
  intros Hi Kx. destruct (obj_of_at i o true Hi) as [Ho Hl]. unfold t_pairwise, pairwise.
  eapply agr_bind; [now apply agr_build|]. intros ?.
  apply (agr_info' _ _ i o true); auto. intros v. cbn [snd].
  eapply agr_bind; [now apply agr_size|]. intros n. eapply agr_bind; [apply agr_req|]. intros ?.
  apply agr_top, agr_for.
  intros k. eapply agr_bind; [now apply (agr_get' _ i k o true)|]. intros z.
  eapply agr_bind; [now apply agr_read|]. intros y. now apply agr_put.
Qed.
Lemma agr_scale op i o c : nth_error ns i = Some (o, true) ->
  agr (inv top) (fun _ => inv top) (t_scale op i c) (scale op o (SVal c)).
Proof.
  intros Hi. destruct (obj_of_at i o true Hi) as [Ho Hl]. unfold t_scale, scale.
  apply (agr_info' _ _ i o true); auto. intros v. cbn [snd].
  apply agr_top, agr_for.
  intros k. eapply agr_bind; [now apply (agr_get' _ i k o true)|]. intros z.
  cbn [sread]. now apply (agr_put _ i k (op z c) o).
Qed.
Lemma agr_fill i o c : nth_error ns i = Some (o, true) ->
  agr (inv top) (fun _ => inv top) (t_fill i c) (fill o (SVal c)).
Proof.
  intros Hi. destruct (obj_of_at i o true Hi) as [Ho Hl]. unfold t_fill, fill.
  apply (agr_info' _ _ i o true); auto. intros v. cbn [snd].
  apply agr_top, agr_for.
  intros k. now apply (agr_put _ i k c o).
Qed.
Lemma agr_put_list P i o l : nth_error ns i = Some (o, true) -> forall k,
  agr (inv P) (fun _ => inv P) (t_put_list i k l) (put_elements o k (map SVal l)).
Proof.
  intros Hi. induction l as [|x l IH]; intros k; cbn [t_put_list put_elements map].
  - now apply agr_ret.
  - intros e s HI. apply (agr_bind _ _ _ _ _ _ (fun _ => put_elements o (S k) (map SVal l)) (agr_put P i k x o Hi) (fun _ => IH (S k)) e s HI).
Qed.
Lemma agr_set i o l : nth_error ns i = Some (o, true) ->
  agr (inv (hold o)) (fun _ => inv top) (t_set triv i l) (assign_elements triv o (map SVal l)).
Proof.
  intros Hi. unfold t_set, assign_elements. rewrite map_length.
  eapply agr_bind; [now apply agr_check|]. intros ?. now apply agr_put_list.
Qed.
Lemma agr_move i j o1 o2 : nth_error ns i = Some (o1, true) -> nth_error ns j = Some (o2, true) ->
  agr (inv top) (fun _ => inv top) (t_move_assign i j) (move_assign o1 o2).
Proof.
  intros Hi Hj e s [N _]. unfold t_move_assign. cbn [act alone exec]. unfold bindM.
  rewrite (writable_at e s i o1 N Hi), (writable_at e s j o2 N Hj).
  unfold move_assign, bindM, get_obj, set_obj. cbn [objs blocks sched with_sched].
  destruct (nth_error (objs s) o1) as [[v1|]|]; auto. cbn [objs blocks sched with_sched].
  destruct (nth_error (objs s) o2) as [[v2|]|]; auto. cbn [objs blocks sched with_sched].
  destruct (list_put (objs s) o1 _) as [os|]; auto. cbn [objs blocks sched].
  destruct (list_put os o2 _); auto. split; [reflexivity|]. split; auto. exact I.
Qed.
Lemma agr_end (P : pr) i o v : nth_error ns i = Some (o, true) -> (forall hs os, P hs os -> nth_error os o = Some (Some v)) ->
  agr (inv P) (fun _ => inv top) (act (CEnd i)) (set_obj o None).
Proof.
  intros Hi Hv e s [N HP]. cbn [act alone exec]. unfold bindM. rewrite (writable_at e s i o N Hi).
  unfold get_obj. rewrite (Hv _ _ HP). unfold set_obj. cbn [objs blocks sched with_sched].
  destruct (list_put (objs s) o None); auto. split; [reflexivity|]. split; auto. exact I.
Qed.
Lemma agr_dtor i o : nth_error ns i = Some (o, true) ->
  agr (inv (hold o)) (fun _ => inv top) (t_dtor triv i) (dtor triv o).
Proof.
  intros Hi. destruct (obj_of_at i o true Hi) as [Ho Hl]. unfold t_dtor, dtor.
  apply (agr_info' _ _ i o true); auto. intros v. cbn [snd].
  match goal with |- agr (inv ?Q) _ _ _ => set (P := Q) end.
  assert (Pv : forall hs os, P hs os -> nth_error os o = Some (Some v)) by (intros hs os [_ H]; exact H).
  intros e s HI.
  assert (Tv : oaddr v = None -> olen v = 0). { destruct HI as [_ [Td Ob]]. exact (Td v Ob). }
  revert e s HI.
  match goal with |- forall e s, _ -> match alone ?p _ _ with _ => _ end =>
    match goal with |- context [?m (with_sched _ _) = RUB _] => change (agr (inv P) (fun _ => inv top) p m) end end.
  eapply agr_bind; [apply (agr_destruct P i o v); auto|]. intros ?.
  eapply agr_bind; [apply (agr_free P i _ o v); auto|]. intros ?.
  now apply (agr_end P i o v).
Qed.
End Names.

(** ** Constructors *)
(** programs that neither create nor end vectors *)
Fixpoint plain {A} (p : prog A) : Prop :=
  match p with
  | PAct c k => match c with CNew | CEnd _ => False | _ => True end /\ forall a, plain (k a)
  | _ => True
  end.
Lemma plain_bind {A B} (p : prog A) (f : A -> prog B) : plain p -> (forall a, plain (f a)) -> plain (pbind p f).
Proof. induction p as [a|x|u|c k IH]; simpl; auto. intros [H1 H2] H. split; auto. Qed.
Lemma plain_for n : forall i f, (forall k, plain (f k)) -> plain (pfor n i f).
Proof. induction n as [|n IH]; intros i f H; simpl; auto. apply plain_bind; auto. Qed.
Lemma plain_act c : match c with CNew | CEnd _ => False | _ => True end -> plain (@act T c).
Proof. destruct c; simpl; auto. Qed.
Lemma plain_req b x : plain (@prequire T b x).
Proof. destruct b; simpl; auto. Qed.
Lemma plain_size x : plain (@t_size T x).
Proof.
  induction x; simpl; auto; apply plain_bind; simpl; auto.
Qed.
Lemma plain_get i k : plain (@t_get T i k).
Proof. unfold t_get. apply plain_bind; [apply plain_act; exact I|]. intros [x|]; exact I. Qed.
Lemma plain_read x : forall k, plain (@t_read T x k).
Proof.
  induction x; intros j; cbn [t_read]; auto using plain_get; repeat (apply plain_bind; [now auto|intros ?]); try exact I.
  destruct (nth_error l j); exact I.
Qed.
Lemma plain_build x : plain (@t_build T x).
Proof.
  induction x; cbn [t_build]; auto; try exact I.
  - split; auto. intros a; exact I.
  - apply plain_bind; auto. intros _. apply plain_bind; auto. intros _.
    apply plain_bind; [apply plain_size|]. intros n1. apply plain_bind; [apply plain_size|]. intros n2. apply plain_req.
  - apply plain_bind; auto. intros _. apply plain_bind; auto. intros _.
    apply plain_bind; [apply plain_size|]. intros n1. apply plain_bind; [apply plain_req|]. intros _.
    apply plain_bind; [apply plain_size|]. intros n2. apply plain_req.
Qed.
Lemma plain_alloc n : plain (@t_alloc T n).
Proof. unfold t_alloc. apply plain_bind; [apply plain_act; exact I|]. intros [h|]; exact I. Qed.
Lemma plain_destruct triv i n : plain (@t_destruct T triv i n).
Proof. unfold t_destruct. destruct triv; [exact I|]. apply plain_for. intros k; apply plain_act; exact I. Qed.
Lemma plain_resize triv i n : plain (@t_resize T triv i n).
Proof.
  unfold t_resize. apply plain_bind; [apply plain_req|intros _]. apply plain_bind; [apply plain_act; exact I|intros v].
  destruct (Z.eqb _ _); [exact I|]. apply plain_bind; [apply plain_alloc|intros h].
  apply plain_bind; [apply plain_destruct|intros _]. apply plain_bind.
  - apply plain_for. intros k. apply plain_bind; [apply plain_act; exact I|]. intros c; apply plain_act; exact I.
  - intros _. apply plain_bind; [apply plain_act; exact I|intros _]. apply plain_act; exact I.
Qed.
Lemma plain_resize_fast triv i n : plain (@t_resize_fast T triv i n).
Proof.
  unfold t_resize_fast. apply plain_bind; [apply plain_req|intros _]. apply plain_bind; [apply plain_act; exact I|intros v].
  destruct (Z.eqb _ _); [exact I|]. apply plain_bind; [apply plain_alloc|intros h].
  apply plain_bind; [apply plain_destruct|intros _].
  apply plain_bind; [apply plain_act; exact I|intros _]. apply plain_act; exact I.
Qed.
Lemma plain_check triv i n x : plain (@t_check_or_resize T triv i n x).
Proof.
  unfold t_check_or_resize. apply plain_bind; [apply plain_act; exact I|intros v].
  destruct (resizable _); [apply plain_resize|apply plain_req].
Qed.
Lemma plain_assign triv i x : plain (@t_assign T triv i x).
Proof.
  unfold t_assign. apply plain_bind; [apply plain_build|intros _]. apply plain_bind; [apply plain_size|intros n].
  apply plain_bind; [apply plain_check|intros _]. apply plain_bind; [apply plain_act; exact I|intros v].
  apply plain_for. intros k. apply plain_bind; [apply plain_read|intros y]. apply plain_act; exact I.
Qed.
Lemma plain_put_list i l : forall k, plain (@t_put_list T i k l).
Proof. induction l as [|x l IH]; intros k; cbn [t_put_list]; [exact I|]. apply plain_bind; auto. apply plain_act; exact I. Qed.
Lemma plain_set triv i l : plain (@t_set T triv i l).
Proof. unfold t_set. apply plain_bind; [apply plain_check|intros _; apply plain_put_list]. Qed.
Lemma plain_move i j : plain (@t_move_assign T i j).
Proof. apply plain_act; exact I. Qed.

(** the vectors that exist stay, and no other comes into being *)
Definition present (s : state) : list bool := map (fun v => match v with Some _ => true | None => false end) (objs s).
Lemma present_put os o (v v' : vobj) os' : nth_error os o = Some (Some v) -> list_put os o (Some v') = Some os' ->
  map (fun v : option vobj => match v with Some _ => true | None => false end) os' =
  map (fun v : option vobj => match v with Some _ => true | None => false end) os.
Proof.
  intros H P. apply nth_error_ext. intros i. rewrite !nth_error_map, (nth_error_list_put _ _ _ _ i P).
  destruct (Nat.eq_dec i o) as [->|]; auto. now rewrite H.
Qed.
Lemma wr_objs (s : state) b k c u s' : wr_cell b k c s = ROk u s' -> objs s' = objs s.
Proof.
  unfold wr_cell, set_block. destruct (get_block s b); [|discriminate]. destruct (list_put _ k c); [|discriminate].
  destruct (list_put (blocks s) b _); [|discriminate]. intros [= _ <-]. reflexivity.
Qed.
Lemma dealloc_objs (s : state) p n u s' : dealloc p n s = ROk u s' -> objs s' = objs s.
Proof.
  unfold dealloc, set_block. destruct p as [[b off]|]; [|intros [= _ <-]; reflexivity].
  destruct (get_block s b); [|discriminate]. destruct (_ && _); [|discriminate].
  destruct (list_put (blocks s) b _); [|discriminate]. intros [= _ <-]. reflexivity.
Qed.
Lemma plain_exec c e (s : state) a e' s' : match c with CNew | CEnd _ => False | _ => True end ->
  exec c e s = ROk (a, e') s' -> names e' = names e /\ present s' = present s.
Proof.
  intros H X. unfold present. destruct c as [i|i k|i k c|n|h k c|i n|i h n|i j| |i]; try contradiction; cbn [exec] in X; unfold bindM, named, writable, handle, get_obj, ubM, ret in X.
  - destruct (nth_error (names e) i) as [[o w]|]; [|discriminate].
    destruct (nth_error (objs s) o) as [[v|]|]; try discriminate. injection X as _ <- <-. auto.
  - destruct (nth_error (names e) i) as [[o w]|]; [|discriminate].
    destruct (nth_error (objs s) o) as [[v|]|]; try discriminate.
    destruct (oaddr v) as [[b off]|]; [|discriminate]. unfold rd_cell in X.
    destruct (get_block s b); [|discriminate]. destruct (nth_error _ _); [|discriminate]. injection X as _ <- <-. auto.
  - destruct (nth_error (names e) i) as [[o [|]]|]; try discriminate.
    destruct (nth_error (objs s) o) as [[v|]|]; try discriminate.
    destruct (oaddr v) as [[b off]|]; [|discriminate].
    destruct (wr_cell b (off + k) c s) as [u s1| |] eqn:W; try discriminate. injection X as _ <- <-.
    now rewrite (wr_objs _ _ _ _ _ _ W).
  - destruct (tsched e) as [|[|] r]; injection X as _ <- <-; auto.
  - destruct (nth_error (handles e) h) as [[b|]|]; try discriminate.
    destruct (wr_cell b k c s) as [u s1| |] eqn:W; try discriminate. injection X as _ <- <-.
    now rewrite (wr_objs _ _ _ _ _ _ W).
  - destruct (nth_error (names e) i) as [[o [|]]|]; try discriminate.
    destruct (nth_error (objs s) o) as [[v|]|]; try discriminate.
    destruct (dealloc (oaddr v) n s) as [u s1| |] eqn:W; try discriminate. injection X as _ <- <-.
    now rewrite (dealloc_objs _ _ _ _ _ W).
  - destruct (nth_error (names e) i) as [[o [|]]|]; try discriminate.
    destruct (nth_error (handles e) h) as [[b|]|]; try discriminate.
    destruct (nth_error (objs s) o) as [[v|]|] eqn:Ob; try discriminate. unfold set_obj in X.
    destruct (list_put (objs s) o _) as [os|] eqn:P; [|discriminate]. injection X as _ <- <-. split; auto.
    exact (present_put _ _ _ _ _ Ob P).
  - destruct (nth_error (names e) i) as [[o1 [|]]|]; try discriminate.
    destruct (nth_error (names e) j) as [[o2 [|]]|]; try discriminate.
    unfold move_assign, bindM, get_obj, set_obj in X.
    destruct (nth_error (objs s) o1) as [[v1|]|] eqn:Ob1; try discriminate.
    destruct (nth_error (objs s) o2) as [[v2|]|] eqn:Ob2; try discriminate.
    destruct (list_put (objs s) o1 _) as [os1|] eqn:P1; [|discriminate]. cbn [objs] in X.
    destruct (list_put os1 o2 _) as [os2|] eqn:P2; [|discriminate]. injection X as _ <- <-. split; auto. cbn [objs].
    rewrite <- (present_put _ _ _ _ _ Ob1 P1).
    assert (exists v, nth_error os1 o2 = Some (Some v)) as [v Ob].
    { rewrite (nth_error_list_put _ _ _ _ o2 P1). destruct (Nat.eq_dec o2 o1); eauto. }
    exact (present_put _ _ _ _ _ Ob P2).
Qed.
Definition nothrow {A} (m : M T A) : Prop := forall s x s', m s <> RThrow x s'.
Lemma nothrow_bind {A B} (m : M T A) (f : A -> M T B) : nothrow m -> (forall a, nothrow (f a)) -> nothrow (bindM m f).
Proof. intros H1 H2 s x s'. unfold bindM. specialize (H1 s). destruct (m s) as [a s1|y s1|u]; [apply H2|now intros _; contradiction (H1 y s1)|discriminate]. Qed.
Lemma nothrow_exec c e : nothrow (@exec T c e).
Proof.
  assert (R : forall A (a : A), nothrow (ret a)) by (intros A a s x s'; discriminate).
  assert (U : forall A u, nothrow (@ubM T A u)) by (intros A u s x s'; discriminate).
  assert (N1 : forall i, nothrow (@named T e i)) by (intros i s x s'; unfold named; destruct (nth_error _ _) as [[? ?]|]; discriminate).
  assert (N2 : forall i, nothrow (@writable T e i)) by (intros i s x s'; unfold writable; destruct (nth_error _ _) as [[? []]|]; discriminate).
  assert (N3 : forall i, nothrow (@handle T e i)) by (intros i s x s'; unfold handle; destruct (nth_error _ _) as [[?|]|]; discriminate).
  assert (N4 : forall o, nothrow (@get_obj T o)) by (intros i s x s'; unfold get_obj; destruct (nth_error _ _) as [[?|]|]; discriminate).
  assert (N5 : forall o v, nothrow (@set_obj T o v)) by (intros i v s x s'; unfold set_obj; destruct (list_put _ _ _); discriminate).
  assert (N6 : forall b k, nothrow (@rd_cell T b k)).
  { intros b k s x s'; unfold rd_cell; destruct (get_block s b); [destruct (nth_error _ _)|]; discriminate. }
  assert (N7 : forall b k c, nothrow (@wr_cell T b k c)).
  { intros b k c0 s x s'; unfold wr_cell; destruct (get_block s b); [|discriminate].
    destruct (list_put _ _ _); [|discriminate]. destruct (set_block _ _ _); discriminate. }
  assert (N8 : forall q n, nothrow (@dealloc T q n)).
  { intros [[b off]|] n s x s'; unfold dealloc; [|discriminate]. destruct (get_block s b); [|discriminate].
    destruct (_ && _); [|discriminate]. destruct (set_block _ _ _); discriminate. }
  assert (N9 : forall v, nothrow (@new_obj T v)) by (intros v s x s'; discriminate).
  destruct c as [i|i k0|i k0 c|n|hh k0 c|i n|i hh n|i j| |i]; cbn [exec].
  4: { intros s x s'. destruct (tsched e) as [|[|] r]; discriminate. }
  all: unfold move_assign; repeat (apply nothrow_bind; [solve [auto]|intros ?]); auto.
  - destruct (oaddr _) as [[b off]|]; auto. apply nothrow_bind; auto.
  - destruct (oaddr _) as [[b off]|]; auto. apply nothrow_bind; auto.
  - apply nothrow_bind; auto. repeat (apply nothrow_bind; [solve [auto]|intros ?]); auto.
Qed.
Lemma plain_alone {A} (p : prog A) : plain p -> forall e s,
  match alone p e s with
  | Returns _ e' s' | Throws _ e' s' => names e' = names e /\ present s' = present s
  | Undefined _ => True
  end.
Proof.
  induction p as [a|x|u|c k IH]; simpl; auto. intros [Hc Hk] e s.
  destruct (exec c e s) as [[a e1] s1|x s1|u] eqn:X; auto.
  - destruct (plain_exec _ _ _ _ _ _ Hc X) as [<- <-]. apply IH; auto.
  - now contradiction (nothrow_exec c e s x s1).
Qed.
Lemma alone_catch {A} (p : prog A) (h : exn -> prog A) : forall e s, alone (pcatch p h) e s =
  match alone p e s with
  | Throws x e' s' => alone (h x) e' s'
  | r => r
  end.
Proof.
  induction p as [a|x|u|c k IH]; simpl; auto. intros e s.
  destruct (exec c e s) as [[a e1] s1|x s1|u] eqn:X; auto. now contradiction (nothrow_exec c e s x s1).
Qed.
Lemma removelast_put {A} (l : list A) x : forall l', list_put l (length l - 1) x = Some l' -> removelast l' = removelast l.
Proof.
  intros l' P. assert (L := list_put_length _ _ _ _ P).
  destruct (exists_last (l := l)) as [l0 [z E]]; [intros ->; discriminate|].
  destruct (exists_last (l := l')) as [l1 [z' E']]; [intros ->; subst l; rewrite app_length in L; simpl in L; lia|].
  subst l l'. rewrite !removelast_last. rewrite !app_length in L. simpl in L.
  apply nth_error_ext. intros i. assert (H := nth_error_list_put _ _ _ _ i P).
  rewrite app_length in H. simpl in H. rewrite Nat.add_sub in H.
  destruct (Nat.eq_dec i (length l0)) as [->|ne].
  - transitivity (@None A); [|symmetry]; apply nth_error_None; lia.
  - rewrite !nth_error_snoc in H. destruct (Nat.eq_dec i (length l1)); [lia|].
    destruct (Nat.eq_dec i (length l0)); [lia|]. exact H.
Qed.

(** a constructor whose body is plain *)
Lemma alone_ctor body hbody e s : let o := length (objs s) in
  plain (body (length (names e))) ->
  agr (inv (names e ++ [(o, true)]) (hold o)) (fun _ => inv (names e ++ [(o, true)]) top) (body (length (names e))) (hbody o) ->
  match alone (t_ctor body) e s with
  | Returns i e' s' => ctor hbody (with_sched s (tsched e)) = ROk o (with_sched s' (tsched e')) /\
                       i = length (names e) /\ names e' = names e ++ [(o, true)]
  | Throws x e' s' => ctor hbody (with_sched s (tsched e)) = RThrow x (with_sched (drop_last s') (tsched e'))
  | Undefined u => ctor hbody (with_sched s (tsched e)) = RUB u
  end.
Proof.
  intros o Pl Ag. unfold t_ctor. cbn [act pbind alone exec]. unfold bindM, new_obj, ret at 1.
  set (s0 := St (blocks s) (objs s ++ [Some (VObj KAllocated None 0)]) (sched s)).
  set (e0 := TE (names e ++ [(length (objs s), true)]) (handles e) (tsched e)).
  rewrite alone_bind, alone_catch. specialize (Ag e0 s0).
  assert (HI : inv (names e ++ [(o, true)]) (hold o) e0 s0).
  { split; [reflexivity|]. intros v. cbn [objs s0]. unfold o. rewrite nth_error_snoc.
    destruct (Nat.eq_dec _ _); [|contradiction]. intros [= <-]. reflexivity. }
  specialize (Ag HI). pose proof (plain_alone _ Pl e0 s0) as PA.
  unfold ctor, ctor_default, new_obj. cbn [blocks objs sched with_sched].
  change (St (blocks s) (objs s ++ [Some (VObj KAllocated None 0)]) (tsched e)) with (with_sched s0 (tsched e0)).
  destruct (alone (body (length (names e))) e0 s0) as [a e' s'|x e' s'|u].
  - destruct Ag as [Ag [N _]]. unfold o in Ag. rewrite Ag. cbn [alone]. auto.
  - unfold o in Ag. rewrite Ag. destruct PA as [N Pr]. cbn [act pbind alone exec]. unfold bindM, writable. rewrite N.
    cbn [names e0]. rewrite nth_error_snoc. destruct (Nat.eq_dec _ _); [|contradiction].
    assert (L : length (objs s') = S o).
    { apply (f_equal (@length _)) in Pr. unfold present in Pr. rewrite !map_length in Pr. rewrite Pr. cbn [objs s0].
      rewrite app_length. unfold o. simpl. lia. }
    assert (exists v, nth_error (objs s') o = Some (Some v)) as [v Ob].
    { apply (f_equal (fun l => nth_error l o)) in Pr. unfold present in Pr. rewrite !nth_error_map in Pr. cbn [objs s0] in Pr.
      unfold o in Pr at 2. rewrite nth_error_snoc in Pr. destruct (Nat.eq_dec _ _) in Pr; [|contradiction].
      destruct (nth_error (objs s') o) as [[v|]|]; try discriminate. eauto. }
    unfold get_obj. fold o. rewrite Ob. unfold set_obj.
    destruct (list_put_Some (objs s') o None) as [os P]; [lia|]. rewrite P. cbn [alone ret].
    unfold drop_last, with_sched. cbn [objs blocks sched]. do 2 f_equal.
    assert (Eo : o = length (objs s') - 1) by lia. rewrite Eo in P. symmetry. exact (removelast_put _ _ _ P).
  - unfold o in Ag. now rewrite Ag.
Qed.
End Refine.
