(** A thread that runs alone does what MHeapModel.v says: the programs of MConcModel.v,
    access by access, have the outcome of the operations they stand for. *)
From Coq Require Import List ZArith Bool Arith Lia.
From Verif Require Import Base BaseFacts HeapModel HeapSpec MatModel MHeapModel MHeapSpec.
From Verif Require Import ConcModel ConcSpec ConcProofs ConcRefine MConcModel MConcSpec MConcProofs.
Import ListNotations.

Section MRefine.
Context {T : Type}.
Notation mstate := (mstate T).
Notation mprog := (mprog T).
Notation prog := (prog T).

(** ** Rules *)
Definition agrN {A} (I : tenv -> mstate -> Prop) (J : A -> tenv -> mstate -> Prop) (p : mprog A) (m : N T A) : Prop :=
  forall e s, I e s ->
  match malone p e s with
  | MReturns a e' s' => m (mwith_sched s (tsched e)) = NOk a (mwith_sched s' (tsched e')) /\ J a e' s'
  | MThrows x e' s' => m (mwith_sched s (tsched e)) = NThrow x (mwith_sched s' (tsched e'))
  | MUndefined u => m (mwith_sched s (tsched e)) = NUB u
  end.
Lemma malone_bind {A B} (p : mprog A) (f : A -> mprog B) : forall e s, malone (qbind p f) e s =
  match malone p e s with
  | MReturns a e' s' => malone (f a) e' s'
  | MThrows x e' s' => MThrows x e' s'
  | MUndefined u => MUndefined u
  end.
Proof.
  induction p as [a|x|u|c k IH]; intros e s; simpl; auto.
  destruct (mexec c e s) as [[a e'] s'| |]; auto.
Qed.
Lemma agrN_bind {A B} I J K (p : mprog A) m (f : A -> mprog B) g : agrN I J p m -> (forall a, agrN (J a) K (f a) (g a)) ->
  agrN I K (qbind p f) (bindN m g).
Proof.
  intros H1 H2 e s HI. rewrite malone_bind. specialize (H1 e s HI). unfold bindN.
  destruct (malone p e s) as [a e' s'|x e' s'|u].
  - destruct H1 as [-> HJ]. exact (H2 a e' s' HJ).
  - now rewrite H1.
  - now rewrite H1.
Qed.
Lemma agrN_ret {A} (I : tenv -> mstate -> Prop) (J : A -> tenv -> mstate -> Prop) a : (forall e s, I e s -> J a e s) -> agrN I J (QRet a) (retN a).
Proof. intros H e s HI. simpl. split; auto. Qed.
Lemma agrN_ub {A} I (J : A -> tenv -> mstate -> Prop) u : agrN I J (QUB u) (ubN u).
Proof. intros e s HI. reflexivity. Qed.
Lemma agrN_weak {A} (I I' : tenv -> mstate -> Prop) (J J' : A -> tenv -> mstate -> Prop) p m :
  (forall e s, I' e s -> I e s) -> (forall a e s, J a e s -> J' a e s) -> agrN I J p m -> agrN I' J' p m.
Proof.
  intros H1 H2 H e s HI. specialize (H e s (H1 _ _ HI)). destruct (malone p e s); auto. destruct H; auto.
Qed.
Lemma agrN_ext {A} I (J : A -> tenv -> mstate -> Prop) p m m' : (forall s, m s = m' s) -> agrN I J p m -> agrN I J p m'.
Proof. intros E H e s HI. specialize (H e s HI). rewrite <- E. exact H. Qed.
Lemma agrN_req I b x : agrN I (fun _ => I) (qrequire b x) (requireN b x).
Proof. intros e s HI. destruct b; simpl; auto. Qed.
Lemma agrN_for I n : forall i f g, (forall k, agrN I (fun _ => I) (f k) (g k)) -> agrN I (fun _ => I) (qfor n i f) (forN n i g).
Proof.
  induction n as [|n IH]; intros i f g H; simpl.
  - now apply agrN_ret.
  - eapply agrN_bind; [apply H|]. intros ?. now apply IH.
Qed.

(** ** Programs that only use memory *)
Fixpoint nonew {A} (p : prog A) : Prop :=
  match p with
  | PAct c k => c <> CNew /\ forall a, nonew (k a)
  | _ => True
  end.
Lemma nonew_plain {A} (p : prog A) : plain p -> nonew p.
Proof. induction p as [a|x|u|c k IH]; simpl; auto. intros [H1 H2]. split; auto. intros ->. exact H1. Qed.
Lemma nonew_bind {A B} (p : prog A) (f : A -> prog B) : nonew p -> (forall a, nonew (f a)) -> nonew (pbind p f).
Proof. induction p as [a|x|u|c k IH]; simpl; auto. intros [H1 H2] H. split; auto. Qed.
Lemma mexec_mem (c : cmd T) e s : c <> CNew -> mexec (MMem c) e s = lift (exec c e) s.
Proof. destruct c; auto. contradiction. Qed.
Lemma malone_mem {A} (p : prog A) : nonew p -> forall e s, malone (mem p) e s =
  match alone p e (heap s) with
  | Returns a e' h => MReturns a e' (MSt h (dims s))
  | Throws x e' h => MThrows x e' (MSt h (dims s))
  | Undefined u => MUndefined u
  end.
Proof.
  induction p as [a|x|u|c k IH]; cbn [nonew mem malone alone]; intros Np e s; auto.
  - now destruct s.
  - now destruct s.
  - destruct Np as [ne Hk]. rewrite (mexec_mem c e s ne). unfold lift.
    destruct (exec c e (heap s)) as [[a e'] h|x h|u] eqn:X; auto.
    exact (IH a (Hk a) e' (MSt h (dims s))).
Qed.

(** ** Accesses *)
Section Names.
Variable ns : list (nat * bool).
Definition mpr := list (option nat) -> list (option vobj) -> list dim -> Prop.
Definition minv (P : mpr) (e : tenv) (s : mstate) : Prop := names e = ns /\ P (handles e) (objs (heap s)) (dims s).

Lemma agrN_mem {A} (P : mpr) (Q : A -> mpr) (p : prog A) m : nonew p ->
  (forall ds, agr (inv ns (fun hs os => P hs os ds)) (fun a => inv ns (fun hs os => Q a hs os ds)) p m) ->
  agrN (minv P) (fun a => minv (Q a)) (mem p) (lift m).
Proof.
  intros Np H e s [N HP]. rewrite (malone_mem p Np). specialize (H (dims s) e (heap s) (conj N HP)).
  unfold lift, mwith_sched. cbn [heap dims].
  destruct (alone p e (heap s)) as [a e' h|x e' h|u].
  - destruct H as [-> [N' HQ]]. split; [reflexivity|]. split; auto.
  - rewrite H. reflexivity.
  - rewrite H. reflexivity.
Qed.
Lemma agrN_dims {B} (P : mpr) K i (f : dim -> mprog B) g : i < length ns ->
  (forall d, agrN (minv (fun hs os ds => P hs os ds /\ nth_error ds (obj_of ns i) = Some d)) K (f d) (g d)) ->
  agrN (minv P) K (qbind (qact (MDims i)) f) (bindN (get_dim (obj_of ns i)) g).
Proof.
  intros Hi H e s [N HP]. cbn [qact qbind malone mexec]. unfold bindN, lift. rewrite (named_at ns e (heap s) i N Hi).
  unfold get_dim. cbn [dims mwith_sched].
  destruct (nth_error (dims s) (obj_of ns i)) as [d|] eqn:D; auto.
  cbn [retN]. replace (MSt (heap s) (dims s)) with s by now destruct s. apply (H d e s). split; auto.
Qed.
Lemma agrN_dims' {B} (P : mpr) K i o w (f : dim -> mprog B) g : nth_error ns i = Some (o, w) ->
  (forall d, agrN (minv (fun hs os ds => P hs os ds /\ nth_error ds o = Some d)) K (f d) (g d)) ->
  agrN (minv P) K (qbind (qact (MDims i)) f) (bindN (get_dim o) g).
Proof. intros Hi. destruct (obj_of_at ns i o w Hi) as [<- Hl]. now apply agrN_dims. Qed.
Lemma agrN_setdims (P Q : mpr) i o r c : nth_error ns i = Some (o, true) ->
  (forall hs os ds ds' d, P hs os ds -> nth_error ds o = Some d -> list_put ds o (Dim r c (dlay d)) = Some ds' -> Q hs os ds') ->
  agrN (minv P) (fun _ => minv Q) (qact (MSetDims i r c)) (set_dim o r c).
Proof.
  intros Hi H e s [N HP]. cbn [qact malone mexec]. unfold bindN, lift. rewrite (writable_at ns e (heap s) i o N Hi).
  unfold set_dim. cbn [dims mwith_sched heap].
  destruct (nth_error (dims s) o) as [d|] eqn:D; auto. destruct (list_put (dims s) o _) as [ds|] eqn:L; auto.
  cbn [retN]. split; [reflexivity|]. split; auto. cbn [heap dims]. eauto.
Qed.
Lemma agrN_get (P : mpr) i r c : i < length ns -> agrN (minv P) (fun _ => minv P) (q_get i r c) (h_get (obj_of ns i) r c).
Proof.
  intros Hi. unfold q_get, h_get. apply agrN_dims; auto. intros d.
  apply (agrN_weak (minv P) _ (fun _ => minv P)); auto; [intros e s [N [H _]]; split; auto|].
  apply agrN_mem; [apply nonew_plain, plain_get|]. intros ds. now apply agr_get.
Qed.
Lemma agrN_get' (P : mpr) i r c o w : nth_error ns i = Some (o, w) -> agrN (minv P) (fun _ => minv P) (q_get i r c) (h_get o r c).
Proof. intros Hi. destruct (obj_of_at ns i o w Hi) as [<- Hl]. now apply agrN_get. Qed.
Lemma agrN_put (P : mpr) i r c x o : nth_error ns i = Some (o, true) -> agrN (minv P) (fun _ => minv P) (q_put i r c x) (h_put o r c x).
Proof.
  intros Hi. unfold q_put, h_put. apply (agrN_dims' _ _ i o true); auto. intros d.
  apply (agrN_weak (minv P) _ (fun _ => minv P)); auto; [intros e s [N [H _]]; split; auto|].
  apply agrN_mem; [apply nonew_plain, plain_act; exact I|]. intros ds. now apply agr_put.
Qed.

(** ** Expressions *)
Lemma agrN_hdims (P : mpr) x : mknown ns x -> agrN (minv P) (fun _ => minv P) (q_dims x) (h_dims (mresolve ns x)).
Proof.
  induction x as [i|r c f|f x IH|f x IH y _|f x IH k|x IH]; cbn [mknown q_dims mresolve h_dims]; intros Kn; auto.
  - apply agrN_dims; auto. intros d. apply agrN_ret. intros e s [N [HP _]]; split; auto.
  - now apply agrN_ret.
  - apply IH. tauto.
  - eapply agrN_bind; [apply IH; auto|]. intros n. now apply agrN_ret.
Qed.
Lemma agrN_read (P : mpr) x : mknown ns x -> forall r c, agrN (minv P) (fun _ => minv P) (q_read x r c) (h_read (mresolve ns x) r c).
Proof.
  induction x as [i|r0 c0 f|f x IH|f x IH y IHy|f x IH k|x IH]; cbn [mknown q_read mresolve h_read]; intros Kn r c.
  - now apply agrN_get.
  - destruct ((r <? r0) && (c <? c0)); [now apply agrN_ret|apply agrN_ub].
  - eapply agrN_bind; [apply IH; auto|]. intros a. now apply agrN_ret.
  - destruct Kn. eapply agrN_bind; [apply IH; auto|]. intros a.
    eapply agrN_bind; [apply IHy; auto|]. intros b. now apply agrN_ret.
  - eapply agrN_bind; [apply IH; auto|]. intros a. now apply agrN_ret.
  - now apply IH.
Qed.
Lemma agrN_build (P : mpr) x : mknown ns x -> agrN (minv P) (fun _ => minv P) (q_build x) (h_build (mresolve ns x)).
Proof.
  induction x as [i|r0 c0 f|f x IH|f x IH y IHy|f x IH k|x IH]; cbn [mknown q_build mresolve h_build]; intros Kn; auto.
  - apply agrN_dims; auto. intros d. apply agrN_ret. intros e s [N [HP _]]; split; auto.
  - now apply agrN_ret.
  - destruct Kn. eapply agrN_bind; [apply IH; auto|]. intros a. eapply agrN_bind; [apply IHy; auto|]. intros b.
    eapply agrN_bind; [apply agrN_hdims; auto|]. intros n1. eapply agrN_bind; [apply agrN_hdims; auto|]. intros n2.
    apply agrN_req.
Qed.

(** ** Storage *)
Variable triv : bool.
Lemma agr_destruct_n (P : pr) i o v n : nth_error ns i = Some (o, true) -> (oaddr v = None -> n = 0) ->
  (forall hs os, P hs os -> nth_error os o = Some (Some v)) ->
  agr (inv ns P) (fun _ => inv ns P) (@t_destruct T triv i n) (destruct_elems triv (oaddr v) n).
Proof.
  intros Hi Ht Hv. unfold t_destruct, destruct_elems. destruct triv; [now apply agr_ret|].
  destruct (oaddr v) as [[b off]|] eqn:Ad.
  - apply agr_for. intros k. pose proof (@agr_wr T ns P i k None o v Hi Hv) as H. now rewrite Ad in H.
  - rewrite (Ht eq_refl). now apply agr_ret.
Qed.
(** o has no memory only if n = 0 *)
Definition empty_if (o n : nat) (os : list (option vobj)) : Prop :=
  forall v, nth_error os o = Some (Some v) -> oaddr v = None -> n = 0.
Lemma agr_attach_to (P Q : pr) i h n o b v : nth_error ns i = Some (o, true) ->
  (forall hs os, P hs os -> nth_error hs h = Some (Some b) /\ nth_error os o = Some (Some v)) ->
  (forall hs hs' os os', P hs os -> list_put os o (Some (VObj (okind v) (Some (b, 0)) n)) = Some os' -> Q hs' os') ->
  agr (inv ns P) (fun _ => inv ns Q) (@act T (CAttach i h n)) (set_obj o (Some (VObj (okind v) (Some (b, 0)) n))).
Proof.
  intros Hi Hv HQ e s [N HP]. cbn [act alone exec]. unfold bindM. rewrite (writable_at ns e s i o N Hi).
  unfold handle. destruct (Hv _ _ HP) as [-> Ob]. unfold get_obj. rewrite Ob. unfold set_obj. cbn [objs with_sched blocks sched].
  destruct (list_put (objs s) o _) as [os|] eqn:L; auto. split; [reflexivity|]. split; auto. cbn [objs handles]. eapply HQ; eauto.
Qed.
(** the reallocation in the middle of resize and resize_fast; [copying] tells them apart *)
Definition t_realloc (copying : bool) (i n_old n_new : nat) : prog unit :=
  pbind (act (CInfo i)) (fun _ =>
  pbind (t_alloc n_new) (fun h =>
  pbind (t_destruct triv i n_old) (fun _ =>
  pbind (if copying then pfor (Nat.min n_old n_new) 0 (fun k => pbind (act (CCell i k)) (fun x => act (CFill h k x)))
         else PRet tt) (fun _ =>
  pbind (act (CFree i n_old)) (fun _ => act (CAttach i h n_new)))))).
Definition h_realloc (copying : bool) (o n_old n_new : nat) : M T unit :=
  bindM (get_obj o) (fun v =>
  bindM (alloc n_new) (fun copy =>
  bindM (destruct_elems triv (oaddr v) n_old) (fun _ =>
  bindM (if copying then match oaddr v with
                         | None => ret tt
                         | Some (b, off) => forM (Nat.min n_old n_new) 0 (fun i =>
                             bindM (rd_cell b (off + i)) (fun x => wr_cell copy i x))
                         end else ret tt) (fun _ =>
  bindM (dealloc (oaddr v) n_old) (fun _ =>
  set_obj o (Some (VObj (okind v) (Some (copy, 0)) n_new))))))).
Lemma agr_realloc (P Q : pr) copying i o n_old n_new : nth_error ns i = Some (o, true) ->
  (forall hs os, P hs os -> empty_if o n_old os) ->
  (forall hs hs' os os' v b, P hs os -> nth_error os o = Some (Some v) -> list_put os o (Some (VObj (okind v) (Some (b, 0)) n_new)) = Some os' -> Q hs' os') ->
  agr (inv ns P) (fun _ => inv ns Q) (t_realloc copying i n_old n_new) (h_realloc copying o n_old n_new).
Proof.
  intros Hi He HQ. destruct (obj_of_at ns i o true Hi) as [Ho Hl]. unfold t_realloc, h_realloc.
  apply (agr_info' ns _ _ i o true); auto. intros v.
  apply agr_alloc. intros h b. match goal with |- agr (inv ns ?R) _ _ _ => set (P1 := R) end.
  assert (Pv : forall hs os, P1 hs os -> nth_error os o = Some (Some v)) by (intros hs os (? & _ & _ & _ & H); exact H).
  assert (Ph : forall hs os, P1 hs os -> nth_error hs h = Some (Some b)).
  { intros hs os (hs0 & -> & <- & _). rewrite nth_error_snoc. now destruct (Nat.eq_dec _ _). }
  intros e s HI.
  assert (Tv : oaddr v = None -> n_old = 0).
  { destruct HI as [_ (hs0 & _ & _ & Td & Ob)]. exact (He _ _ Td v Ob). }
  revert e s HI.
  match goal with |- forall e s, _ -> match alone ?p _ _ with _ => _ end =>
    match goal with |- context [?m (with_sched _ _) = RUB _] => change (agr (inv ns P1) (fun _ => inv ns Q) p m) end end.
  eapply agr_bind; [apply (agr_destruct_n P1 i o v); auto|]. intros ?.
  eapply (agr_bind _ (fun _ => inv ns P1)).
  - destruct copying; [|now apply agr_ret]. destruct (oaddr v) as [[b0 off]|] eqn:Ad.
    + apply agr_for. intros k. pose proof (@agr_cell T ns P1 i k v Hl) as C. rewrite Ho, Ad in C.
      eapply agr_bind; [apply C; auto|]. intros c. now apply agr_fillb.
    + rewrite (Tv eq_refl). cbn [Nat.min pfor]. now apply agr_ret.
  - intros ?. eapply agr_bind; [apply (agr_free ns P1 i n_old o v); auto|]. intros ?.
    apply (agr_attach_to P1); auto; [intros hs os H; split; [exact (Ph hs os H)|exact (Pv hs os H)]|].
    intros hs hs' os os' (hs0 & _ & _ & HP & Ob) L. eapply HQ; eauto.
Qed.
(** an empty matrix is the only one without memory *)
Definition htidy (o : nat) (os : list (option vobj)) (ds : list dim) : Prop :=
  forall d, nth_error ds o = Some d -> empty_if o (drows d * dcols d) os.
Definition hold2 (o o' : nat) : mpr := fun hs os ds => htidy o os ds /\ htidy o' os ds.
Lemma htidy_put_dim o r c o' os ds ds' d : nth_error ds o = Some d -> list_put ds o (Dim r c (dlay d)) = Some ds' ->
  (empty_if o (r * c) os) -> htidy o' os ds -> htidy o' os ds'.
Proof.
  intros D L E H d'. rewrite (nth_error_list_put _ _ _ _ o' L). destruct (Nat.eq_dec o' o) as [->|]; auto.
  intros [= <-]. exact E.
Qed.
Lemma htidy_put_obj o v b n o' os os' ds : list_put os o (Some (VObj (okind v) (Some (b, 0)) n)) = Some os' ->
  htidy o' os ds -> htidy o' os' ds.
Proof.
  intros L H d D v'. rewrite (nth_error_list_put _ _ _ _ o' L). destruct (Nat.eq_dec o' o) as [->|].
  - intros [= <-] A. discriminate A.
  - exact (H d D v').
Qed.
Definition q_resize_with (copying : bool) (i : nat) (rows cols : Z) : mprog unit :=
  qbind (qrequire (Z.leb 0 rows) EInvalidArgument) (fun _ =>
  qbind (qrequire (Z.leb 0 cols) EInvalidArgument) (fun _ =>
  let r := Z.to_nat rows in let c := Z.to_nat cols in
  qbind (qact (MDims i)) (fun d : dim =>
  if Nat.eqb (r * c) (drows d * dcols d) then qact (MSetDims i r c) else
  qbind (mem (t_realloc copying i (drows d * dcols d) (r * c))) (fun _ => qact (MSetDims i r c))))).
Definition h_resize_with (copying : bool) (o : nat) (rows cols : Z) : N T unit :=
  bindN (requireN (Z.leb 0 rows) EInvalidArgument) (fun _ =>
  bindN (requireN (Z.leb 0 cols) EInvalidArgument) (fun _ =>
  let r := Z.to_nat rows in let c := Z.to_nat cols in
  bindN (get_dim o) (fun d =>
  if Nat.eqb (r * c) (drows d * dcols d) then set_dim o r c else
  bindN (lift (h_realloc copying o (drows d * dcols d) (r * c))) (fun _ => set_dim o r c)))).
Lemma plain_realloc copying i n m : plain (t_realloc copying i n m).
Proof.
  unfold t_realloc. apply plain_bind; [apply plain_act; exact I|intros _]. apply plain_bind; [apply plain_alloc|intros h].
  apply plain_bind; [apply plain_destruct|intros _]. apply plain_bind.
  - destruct copying; [|exact I]. apply plain_for. intros k. apply plain_bind; [apply plain_act; exact I|]. intros c; apply plain_act; exact I.
  - intros _. apply plain_bind; [apply plain_act; exact I|intros _]. apply plain_act; exact I.
Qed.
Lemma agrN_resize_with copying i o o' r c : nth_error ns i = Some (o, true) ->
  agrN (minv (hold2 o o')) (fun _ => minv (hold2 o o')) (q_resize_with copying i r c) (h_resize_with copying o r c).
Proof.
  intros Hi. unfold q_resize_with, h_resize_with.
  eapply agrN_bind; [apply agrN_req|]. intros ?. eapply agrN_bind; [apply agrN_req|]. intros ?. cbn zeta.
  apply (agrN_dims' _ _ i o true); auto. intros d.
  destruct (Nat.eqb (Z.to_nat r * Z.to_nat c) (drows d * dcols d)) eqn:E.
  - apply Nat.eqb_eq in E. apply agrN_setdims; auto. intros hs os ds ds' d' [[H1 H2] D] D' L.
    assert (Em : empty_if o (Z.to_nat r * Z.to_nat c) os) by (rewrite E; exact (H1 d D)).
    split; eapply htidy_put_dim; eauto.
  - eapply (agrN_bind _ (fun _ => minv (fun hs os ds => hold2 o o' hs os ds /\ forall n, empty_if o n os))).
    + apply (agrN_mem _ (fun _ => _)); [apply nonew_plain, plain_realloc|]. intros ds. apply agr_realloc; auto.
      * intros hs os [[H1 H2] D]. exact (H1 d D).
      * intros hs hs' os os' v b [[H1 H2] D] Ob L. split; [split; eapply htidy_put_obj; eauto|].
        intros n v'. rewrite (nth_error_list_put _ _ _ _ o L). destruct (Nat.eq_dec o o); [|contradiction].
        intros [= <-] A. discriminate A.
    + intros ?. apply agrN_setdims; auto. intros hs os ds ds' d' [[H1 H2] Em] D' L.
      split; eapply htidy_put_dim; eauto.
Qed.
Lemma agrN_resize i o o' r c : nth_error ns i = Some (o, true) ->
  agrN (minv (hold2 o o')) (fun _ => minv (hold2 o o')) (q_resize triv i r c) (h_resize triv o r c).
Proof.
  intros Hi. apply (agrN_ext _ _ _ (h_resize_with true o r c)); [|exact (agrN_resize_with true i o o' r c Hi)].
  intros s. unfold h_resize_with, h_resize, h_realloc, bindN, lift, requireN.
  destruct (Z.leb 0 r); auto. destruct (Z.leb 0 c); auto. unfold get_dim. destruct (nth_error (dims s) o) as [d|]; auto.
  destruct (Nat.eqb _ _); auto. unfold bindM. destruct s as [h ds]. cbn [heap dims].
  unfold get_obj. destruct (nth_error (objs h) o) as [[v|]|]; auto. cbn [heap dims].
  destruct (alloc _ h) as [b h1| |]; auto. cbn [heap dims]. destruct (destruct_elems _ _ _ h1) as [? h2| |]; auto. cbn [heap dims].
  destruct (oaddr v) as [[b0 off]|]; unfold ret.
  - destruct (forM _ _ _ h2) as [? h3| |]; auto. destruct (dealloc _ _ h3) as [? h4| |]; auto.
  - reflexivity.
Qed.
Lemma agrN_resize_fast i o o' r c : nth_error ns i = Some (o, true) ->
  agrN (minv (hold2 o o')) (fun _ => minv (hold2 o o')) (q_resize_fast triv i r c) (h_resize_fast triv o r c).
Proof.
  intros Hi. apply (agrN_ext _ _ _ (h_resize_with false o r c)); [|exact (agrN_resize_with false i o o' r c Hi)].
  intros s. unfold h_resize_with, h_resize_fast, h_realloc, bindN, lift, requireN.
  destruct (Z.leb 0 r); auto. destruct (Z.leb 0 c); auto. unfold get_dim. destruct (nth_error (dims s) o) as [d|]; auto.
  destruct (Nat.eqb _ _); auto. unfold bindM, ret. destruct s as [h ds]. cbn [heap dims].
  unfold get_obj. destruct (nth_error (objs h) o) as [[v|]|]; auto. cbn [heap dims].
  destruct (alloc _ h) as [b h1| |]; auto. cbn [heap dims]. destruct (destruct_elems _ _ _ h1) as [? h2| |]; auto. cbn [heap dims].
  destruct (dealloc _ _ h2) as [? h4| |]; auto.
Qed.

(** ** The operations *)
Lemma agrN_each (P : mpr) i o f g : nth_error ns i = Some (o, true) ->
  (forall r c, agrN (minv P) (fun _ => minv P) (f r c) (g r c)) ->
  agrN (minv P) (fun _ => minv P) (q_each i f) (h_each o g).
Proof.
  intros Hi H. unfold q_each, h_each. apply (agrN_dims' _ _ i o true); auto. intros d.
  apply (agrN_weak (minv P) _ (fun _ => minv P)); auto; [intros e s [N [HP _]]; split; auto|].
  destruct (dlay d); apply agrN_for; intros a; apply agrN_for; intros b; apply H.
Qed.
Lemma agrN_assign i o o' x : nth_error ns i = Some (o, true) -> mknown ns x ->
  agrN (minv (hold2 o o')) (fun _ => minv (hold2 o o')) (q_assign triv i x) (h_assign triv o (mresolve ns x)).
Proof.
  intros Hi Kx. unfold q_assign, h_assign.
  eapply agrN_bind; [now apply agrN_build|]. intros ?. eapply agrN_bind; [now apply agrN_hdims|]. intros n.
  eapply agrN_bind; [now apply agrN_resize|]. intros ?.
  apply agrN_each; auto. intros r c. eapply agrN_bind; [now apply agrN_read|]. intros y. now apply agrN_put.
Qed.
Lemma agrN_compound op i o o' x : nth_error ns i = Some (o, true) -> mknown ns x ->
  agrN (minv (hold2 o o')) (fun _ => minv (hold2 o o')) (q_compound triv op i x) (h_compound triv op o (mresolve ns x)).
Proof.
  intros Hi Kx. unfold q_compound, h_compound.
  eapply agrN_bind; [now apply agrN_build|]. intros ?. eapply agrN_bind; [now apply agrN_hdims|]. intros n.
  eapply agrN_bind; [now apply agrN_resize|]. intros ?.
  apply agrN_each; auto. intros r c. eapply agrN_bind; [now apply (agrN_get' _ i r c o true)|]. intros z.
  eapply agrN_bind; [now apply agrN_read|]. intros y. now apply agrN_put.
Qed.
Lemma agrN_scale (P : mpr) op i o k : nth_error ns i = Some (o, true) ->
  agrN (minv P) (fun _ => minv P) (q_scale op i k) (h_scale op o k).
Proof.
  intros Hi. apply agrN_each; auto. intros r c. eapply agrN_bind; [now apply (agrN_get' _ i r c o true)|]. intros z.
  now apply agrN_put.
Qed.
Lemma agrN_generate (P : mpr) i o f : nth_error ns i = Some (o, true) ->
  agrN (minv P) (fun _ => minv P) (q_generate i f) (h_generate o f).
Proof. intros Hi. apply agrN_each; auto. intros r c. now apply agrN_put. Qed.
Lemma agrN_put_list (P : mpr) i o cols l : nth_error ns i = Some (o, true) -> forall k,
  agrN (minv P) (fun _ => minv P) (q_put_list i cols k l) (h_put_list o cols k l).
Proof.
  intros Hi. induction l as [|x l IH]; intros k; cbn [q_put_list h_put_list].
  - now apply agrN_ret.
  - destruct (Nat.eqb cols 0); [apply agrN_ub|]. eapply agrN_bind; [now apply agrN_put|]. intros ?. apply IH.
Qed.
Lemma agrN_list (P : mpr) ex i o l : nth_error ns i = Some (o, true) ->
  agrN (minv P) (fun _ => minv P) (q_list ex i l) (h_assign_list ex o l).
Proof.
  intros Hi. unfold q_list, h_assign_list. apply (agrN_dims' _ _ i o true); auto. intros d.
  apply (agrN_weak (minv P) _ (fun _ => minv P)); auto; [intros e s [N [HP _]]; split; auto|].
  eapply agrN_bind; [apply agrN_req|]. intros ?. now apply agrN_put_list.
Qed.
Lemma agrN_dtor i o o' : nth_error ns i = Some (o, true) ->
  agrN (minv (hold2 o o')) (fun _ => minv (fun _ _ _ => True)) (q_dtor triv i) (h_dtor triv o).
Proof.
  intros Hi. unfold q_dtor, h_dtor. apply (agrN_dims' _ _ i o true); auto. intros d.
  apply (agrN_ext _ _ _ (lift (bindM (get_obj o) (fun v =>
    bindM (destruct_elems triv (oaddr v) (drows d * dcols d)) (fun _ =>
    bindM (dealloc (oaddr v) (drows d * dcols d)) (fun _ => set_obj o None)))))).
  { intros s. unfold bindN, lift, bindM. destruct s as [h ds]. cbn [heap dims].
    destruct (get_obj o h) as [v h0| |]; auto. cbn [heap dims].
    destruct (destruct_elems _ _ _ h0) as [? h1| |]; auto. cbn [heap dims].
    destruct (dealloc _ _ h1) as [? h2| |]; auto. }
  apply (agrN_mem _ (fun _ => _)).
  { apply nonew_bind; [split; [discriminate|intros ?; exact I]|intros _].
    apply nonew_bind; [apply nonew_plain, plain_destruct|intros _].
    apply nonew_bind; [split; [discriminate|intros ?; exact I]|intros _]. split; [discriminate|intros ?; exact I]. }
  intros ds. apply (agr_info' ns _ _ i o true); auto. intros v.
  match goal with |- agr (inv ns ?Q) _ _ _ => set (P := Q) end.
  assert (Pv : forall hs os, P hs os -> nth_error os o = Some (Some v)) by (intros hs os [_ H]; exact H).
  intros e s HI.
  assert (Tv : oaddr v = None -> drows d * dcols d = 0).
  { destruct HI as [_ [[[H1 _] D] Ob]]. exact (H1 d D v Ob). }
  revert e s HI.
  match goal with |- forall e s, _ -> match alone ?p _ _ with _ => _ end =>
    match goal with |- context [?m (with_sched _ _) = RUB _] => change (agr (inv ns P) (fun _ => inv ns (fun _ _ => True)) p m) end end.
  eapply agr_bind; [apply (agr_destruct_n P i o v); auto|]. intros ?.
  eapply agr_bind; [apply (agr_free ns P i _ o v); auto|]. intros ?.
  now apply (agr_end ns P i o v).
Qed.
Lemma agrN_move (P : mpr) i j o1 o2 : nth_error ns i = Some (o1, true) -> nth_error ns j = Some (o2, true) ->
  agrN (minv P) (fun _ e s => names e = ns) (q_move_assign i j) (h_move_assign o1 o2).
Proof.
  intros Hi Hj e s [N _]. unfold q_move_assign, h_move_assign.
  destruct (obj_of_at ns i o1 true Hi) as [Ho1 Hl1], (obj_of_at ns j o2 true Hj) as [Ho2 Hl2].
  cbn [qbind mem act pbind qact malone mexec exec]. unfold bindN, lift, bindM. destruct s as [h ds]. cbn [heap dims mwith_sched].
  rewrite (named_at ns e h i N Hl1). rewrite Ho1. unfold get_obj. cbn [objs with_sched].
  destruct (nth_error (objs h) o1) as [[v1|]|] eqn:O1; auto. cbn [ret heap dims].
  rewrite (named_at ns e h j N Hl2). rewrite Ho2. cbn [objs with_sched].
  destruct (nth_error (objs h) o2) as [[v2|]|] eqn:O2; auto. cbn [ret heap dims].
  rewrite (named_at ns e h i N Hl1). rewrite Ho1. unfold get_dim. cbn [dims].
  destruct (nth_error ds o1) as [d1|] eqn:D1; auto. cbn [retN heap].
  rewrite (named_at ns e h j N Hl2). rewrite Ho2. cbn [dims].
  destruct (nth_error ds o2) as [d2|] eqn:D2; auto. cbn [retN heap].
  rewrite (writable_at ns e h i o1 N Hi), (writable_at ns e h j o2 N Hj).
  unfold move_assign, bindM, get_obj. rewrite O1, O2. unfold set_obj. cbn [objs with_sched blocks sched].
  destruct (list_put (objs h) o1 _) as [os1|]; auto. cbn [objs blocks sched heap dims].
  destruct (list_put os1 o2 _) as [os2|]; auto. cbn [ret heap dims].
  rewrite (writable_at ns e _ i o1 N Hi). unfold set_dim. cbn [dims heap]. rewrite D1.
  destruct (list_put ds o1 _) as [ds1|]; auto. cbn [retN heap dims].
  rewrite (writable_at ns e _ j o2 N Hj). cbn [dims heap].
  destruct (nth_error ds1 o2) as [d3|]; auto. destruct (list_put ds1 o2 _) as [ds2|]; auto. cbn [retN].
  split; [reflexivity|exact N].
Qed.
End Names.

(** ** Programs that create and destroy nothing *)
Fixpoint mplain {A} (p : mprog A) : Prop :=
  match p with
  | QAct c k => match c with MNew _ | MMem CNew | MMem (CEnd _) => False | _ => True end /\ forall a, mplain (k a)
  | _ => True
  end.
Lemma mplain_bind {A B} (p : mprog A) (f : A -> mprog B) : mplain p -> (forall a, mplain (f a)) -> mplain (qbind p f).
Proof. induction p as [a|x|u|c k IH]; simpl; auto. intros [H1 H2] H. split; auto. Qed.
Lemma mplain_act c : match c with MNew _ | MMem CNew | MMem (CEnd _) => False | _ => True end -> mplain (@qact T c).
Proof. intros H. split; auto. intros a. exact I. Qed.
Lemma mplain_mem {A} (p : prog A) : plain p -> mplain (mem p).
Proof. induction p as [a|x|u|c k IH]; simpl; auto. intros [H1 H2]. split; auto. Qed.
Lemma mplain_for n : forall i f, (forall k, mplain (f k)) -> mplain (@qfor T n i f).
Proof. induction n as [|n IH]; intros i f H; simpl; auto. apply mplain_bind; auto. Qed.
Lemma mplain_req b x : mplain (@qrequire T b x).
Proof. destruct b; exact I. Qed.
Lemma mplain_get i r c : mplain (@q_get T i r c).
Proof. apply mplain_bind; [apply mplain_act; exact I|]. intros d. apply mplain_mem, plain_get. Qed.
Lemma mplain_put i r c x : mplain (@q_put T i r c x).
Proof. apply mplain_bind; [apply mplain_act; exact I|]. intros d. apply mplain_mem, plain_act. exact I. Qed.
Lemma mplain_dims x : mplain (@q_dims T x).
Proof. induction x; cbn [q_dims]; auto; try exact I; apply mplain_bind; auto; try (intros; exact I). apply mplain_act; exact I. Qed.
Lemma mplain_read x : forall r c, mplain (@q_read T x r c).
Proof.
  induction x; intros a b; cbn [q_read]; auto using mplain_get; repeat (apply mplain_bind; [now auto|intros ?]); try exact I.
  destruct (_ && _); exact I.
Qed.
Lemma mplain_build x : mplain (@q_build T x).
Proof.
  induction x; cbn [q_build]; auto; try exact I.
  - apply mplain_bind; [apply mplain_act; exact I|intros ?; exact I].
  - apply mplain_bind; auto. intros _. apply mplain_bind; auto. intros _.
    apply mplain_bind; [apply mplain_dims|]. intros n1. apply mplain_bind; [apply mplain_dims|]. intros n2. apply mplain_req.
Qed.
Lemma mplain_resize_with triv copying i r c : mplain (q_resize_with triv copying i r c).
Proof.
  unfold q_resize_with. apply mplain_bind; [apply mplain_req|intros _]. apply mplain_bind; [apply mplain_req|intros _]. cbn zeta.
  apply mplain_bind; [apply mplain_act; exact I|intros d]. destruct (Nat.eqb _ _); [apply mplain_act; exact I|].
  apply mplain_bind; [apply mplain_mem, plain_realloc|intros _]. apply mplain_act; exact I.
Qed.
Lemma mplain_resize triv i r c : mplain (@q_resize T triv i r c).
Proof. exact (mplain_resize_with triv true i r c). Qed.
Lemma mplain_resize_fast triv i r c : mplain (@q_resize_fast T triv i r c).
Proof. exact (mplain_resize_with triv false i r c). Qed.
Lemma mplain_each i f : (forall r c, mplain (f r c)) -> mplain (@q_each T i f).
Proof.
  intros H. apply mplain_bind; [apply mplain_act; exact I|intros d].
  destruct (dlay d); apply mplain_for; intros a; apply mplain_for; intros b; apply H.
Qed.
Lemma mplain_assign triv i x : mplain (@q_assign T triv i x).
Proof.
  apply mplain_bind; [apply mplain_build|intros _]. apply mplain_bind; [apply mplain_dims|intros n].
  apply mplain_bind; [apply mplain_resize|intros _]. apply mplain_each. intros r c.
  apply mplain_bind; [apply mplain_read|intros y; apply mplain_put].
Qed.
Lemma mplain_list ex i l : mplain (@q_list T ex i l).
Proof.
  apply mplain_bind; [apply mplain_act; exact I|intros d]. apply mplain_bind; [apply mplain_req|intros _].
  generalize 0. induction l as [|x l IH]; intros k; cbn [q_put_list]; [exact I|].
  destruct (Nat.eqb _ _); [exact I|]. apply mplain_bind; [apply mplain_put|intros _; apply IH].
Qed.
Lemma mplain_move i j : mplain (@q_move_assign T i j).
Proof. unfold q_move_assign. repeat (apply mplain_bind; [repeat split; try (intros; exact I)|intros ?]). apply mplain_act; exact I. Qed.

Lemma mexec_nothrow c e (s : mstate) x s' : mexec c e s <> NThrow x s'.
Proof.
  destruct c as [c|i|i r c|l]; cbn [mexec].
  - assert (lift (exec c e) s <> NThrow x s').
    { unfold lift. intros X. destruct (exec c e (heap s)) as [? ?|y h|?] eqn:E; try discriminate.
      exact (nothrow_exec c e (heap s) y h E). }
    destruct c; auto; discriminate.
  - unfold bindN, lift, named, get_dim, retN. destruct (nth_error (names e) i) as [[o w]|]; [|discriminate].
    cbn [dims]. destruct (nth_error _ _); discriminate.
  - unfold bindN, lift, writable, set_dim, retN. destruct (nth_error (names e) i) as [[o []]|]; try discriminate.
    cbn [dims heap]. destruct (nth_error _ _); [|discriminate]. destruct (list_put _ _ _); discriminate.
  - discriminate.
Qed.
Lemma mplain_exec c e (s : mstate) a e' s' : match c with MNew _ | MMem CNew | MMem (CEnd _) => False | _ => True end ->
  mexec c e s = NOk (a, e') s' -> names e' = names e /\ present (heap s') = present (heap s) /\ length (dims s') = length (dims s).
Proof.
  destruct c as [c|i|i r c|l]; intros Hc.
  - assert (Hp : match c with CNew | CEnd _ => False | _ => True end) by now destruct c.
    rewrite (mexec_mem c e s); [|intros ->; exact Hc]. unfold lift.
    destruct (exec c e (heap s)) as [[a0 e0] h|x h|u] eqn:X; try discriminate. intros [= <- <- <-].
    destruct (plain_exec _ _ _ _ _ _ Hp X) as [<- <-]. auto.
  - cbn [mexec]. unfold bindN, lift, named, get_dim, retN. destruct (nth_error (names e) i) as [[o w]|]; [|discriminate].
    cbn [dims]. destruct (nth_error _ _); [|discriminate]. cbn. intros [= <- <- <-]. auto.
  - cbn [mexec]. unfold bindN, lift, writable, set_dim, retN. destruct (nth_error (names e) i) as [[o []]|]; try discriminate.
    cbn [dims heap]. destruct (nth_error _ _); [|discriminate]. destruct (list_put _ _ _) as [ds|] eqn:L; [|discriminate]. cbn. intros [= <- <- <-].
    cbn [heap dims]. repeat split. exact (list_put_length _ _ _ _ L).
  - contradiction.
Qed.
Lemma mplain_alone {A} (p : mprog A) : mplain p -> forall e s,
  match malone p e s with
  | MReturns _ e' s' | MThrows _ e' s' => names e' = names e /\ present (heap s') = present (heap s) /\ length (dims s') = length (dims s)
  | MUndefined _ => True
  end.
Proof.
  induction p as [a|x|u|c k IH]; cbn [mplain malone]; auto. intros [Hc Hk] e s.
  destruct (mexec c e s) as [[a e1] s1|x s1|u] eqn:X; auto.
  - destruct (mplain_exec _ _ _ _ _ _ Hc X) as (<- & <- & <-). apply IH; auto.
  - contradiction (mexec_nothrow c e s x s1).
Qed.
Lemma malone_catch {A} (p : mprog A) (h : exn -> mprog A) : forall e s, malone (qcatch p h) e s =
  match malone p e s with
  | MThrows x e' s' => malone (h x) e' s'
  | r => r
  end.
Proof.
  induction p as [a|x|u|c k IH]; intros e s; simpl; auto.
  destruct (mexec c e s) as [[a e'] s'|x s'|] eqn:X; auto. contradiction (mexec_nothrow c e s x s').
Qed.

(** ** Construction *)
Definition mdrop (s : mstate) : mstate := MSt (drop_last (heap s)) (removelast (dims s)).
Definition born (l : layout) (s : mstate) : mstate :=
  MSt (St (blocks (heap s)) (objs (heap s) ++ [Some (VObj KAllocated None 0)]) (sched (heap s))) (dims s ++ [Dim 0 0 l]).
Definition naming (e : tenv) (o : nat) : tenv := TE (names e ++ [(o, true)]) (handles e) (tsched e).
Lemma htidy_born l s o : wf s -> htidy o (objs (heap s)) (dims s) -> htidy o (objs (heap (born l s))) (dims (born l s)).
Proof.
  intros W H d D v Ob. cbn [born heap dims objs] in *. rewrite nth_error_snoc in D. rewrite nth_error_snoc in Ob. unfold wf in W. rewrite W in D.
  destruct (Nat.eq_dec o (length (objs (heap s)))) as [->|].
  - injection D as <-. reflexivity.
  - exact (H d D v Ob).
Qed.
Lemma hold_born l s : wf s -> htidy (length (objs (heap s))) (objs (heap (born l s))) (dims (born l s)).
Proof.
  intros W. apply htidy_born; auto. intros d D. apply nth_error_lt in D. unfold wf in W. lia.
Qed.
Lemma malone_ctor l body hbody e s o2 (J : tenv -> mstate -> Prop) : let o := length (objs (heap s)) in
  wf s -> mplain (body (length (names e))) -> htidy o2 (objs (heap s)) (dims s) ->
  agrN (minv (names e ++ [(o, true)]) (hold2 o o2)) (fun _ => J) (body (length (names e))) (hbody o) ->
  match malone (q_ctor l body) e s with
  | MReturns i e' s' => h_ctor l hbody (mwith_sched s (tsched e)) = NOk o (mwith_sched s' (tsched e')) /\
                        i = length (names e) /\ names e' = names e ++ [(o, true)] /\ J e' s'
  | MThrows x e' s' => h_ctor l hbody (mwith_sched s (tsched e)) = NThrow x (mwith_sched (mdrop s') (tsched e'))
  | MUndefined u => h_ctor l hbody (mwith_sched s (tsched e)) = NUB u
  end.
Proof.
  intros o W Pl Ht Ag. unfold q_ctor. cbn [qact qbind malone mexec]. unfold bindN, h_default, retN at 1. fold (born l s). fold o.
  fold (naming e o). rewrite malone_bind, malone_catch. specialize (Ag (naming e o) (born l s)).
  assert (HI : minv (names e ++ [(o, true)]) (hold2 o o2) (naming e o) (born l s)).
  { split; [reflexivity|]. split; [apply hold_born|apply htidy_born]; auto. }
  specialize (Ag HI). pose proof (mplain_alone _ Pl (naming e o) (born l s)) as PA.
  unfold h_ctor, h_default. change (length (objs (heap (mwith_sched s (tsched e))))) with o.
  set (s1 := MSt _ _). change s1 with (mwith_sched (born l s) (tsched (naming e o))). clear s1.
  destruct (malone (body (length (names e))) (naming e o) (born l s)) as [a e' s'|x e' s'|u].
  - destruct Ag as [-> HJ]. cbn [malone]. destruct PA as [N _]. auto.
  - rewrite Ag. destruct PA as (N & Pr & Ld). cbn [qact qbind malone mexec]. unfold lift. cbn [exec]. unfold bindM, writable. rewrite N.
    cbn [names naming]. rewrite nth_error_snoc. destruct (Nat.eq_dec _ _); [|contradiction].
    assert (L : length (objs (heap s')) = S o).
    { apply (f_equal (@length _)) in Pr. unfold present in Pr. rewrite !map_length in Pr. rewrite Pr. cbn [objs heap born].
      rewrite app_length. unfold o. simpl. lia. }
    assert (exists v, nth_error (objs (heap s')) o = Some (Some v)) as [v Ob].
    { apply (f_equal (fun l => nth_error l o)) in Pr. unfold present in Pr. rewrite !nth_error_map in Pr. cbn [objs heap born] in Pr.
      unfold o in Pr at 2. rewrite nth_error_snoc in Pr. destruct (Nat.eq_dec _ _) in Pr; [|contradiction].
      destruct (nth_error (objs (heap s')) o) as [[v|]|]; try discriminate. eauto. }
    unfold get_obj. rewrite Ob. unfold set_obj.
    destruct (list_put_Some (objs (heap s')) o None) as [os P]; [lia|]. rewrite P. cbn [malone ret].
    unfold mdrop, drop_last, mwith_sched, with_sched. cbn [objs blocks sched heap dims]. do 3 f_equal.
    assert (Eo : o = length (objs (heap s')) - 1) by lia. rewrite Eo in P. symmetry. exact (removelast_put _ _ _ P).
  - now rewrite Ag.
Qed.

(** ** Programs that throw only before they change anything *)
Fixpoint calm {A} (p : mprog A) : Prop :=
  match p with QThrow _ => False | QAct c k => forall a, calm (k a) | _ => True end.
Fixpoint pcalm {A} (p : prog A) : Prop :=
  match p with PThrow _ => False | PAct c k => forall a, pcalm (k a) | _ => True end.
Fixpoint looks {A} (p : mprog A) : Prop :=
  match p with QAct (MDims _) k => forall a, looks (k a) | QAct _ _ => False | _ => True end.
Definition early {A} (p : mprog A) : Prop :=
  forall e s x e' s', malone p e s = MThrows x e' s' -> s' = s /\ names e' = names e.
Lemma calm_bind {A B} (p : mprog A) (f : A -> mprog B) : calm p -> (forall a, calm (f a)) -> calm (qbind p f).
Proof. induction p as [a|x|u|c k IH]; simpl; auto; contradiction. Qed.
Lemma pcalm_bind {A B} (p : prog A) (f : A -> prog B) : pcalm p -> (forall a, pcalm (f a)) -> pcalm (pbind p f).
Proof. induction p as [a|x|u|c k IH]; simpl; auto; contradiction. Qed.
Lemma pcalm_for n : forall i f, (forall k, pcalm (f k)) -> pcalm (@pfor T n i f).
Proof. induction n as [|n IH]; intros i f H; simpl; auto. apply pcalm_bind; auto. Qed.
Lemma calm_mem {A} (p : prog A) : pcalm p -> calm (mem p).
Proof. induction p as [a|x|u|c k IH]; simpl; auto. Qed.
Lemma calm_act c : calm (@qact T c).
Proof. intros a. exact I. Qed.
Lemma calm_for n : forall i f, (forall k, calm (f k)) -> calm (@qfor T n i f).
Proof. induction n as [|n IH]; intros i f H; simpl; auto. apply calm_bind; auto. Qed.
Lemma calm_get i r c : calm (@q_get T i r c).
Proof. intros d. apply calm_mem. intros [x|]; exact I. Qed.
Lemma calm_put i r c x : calm (@q_put T i r c x).
Proof. intros d. apply calm_mem. intros a. exact I. Qed.
Lemma calm_read x : forall r c, calm (@q_read T x r c).
Proof.
  induction x; intros a b; cbn [q_read]; auto using calm_get; repeat (apply calm_bind; [now auto|intros ?]); try exact I.
  destruct (_ && _); exact I.
Qed.
Lemma calm_each i f : (forall r c, calm (f r c)) -> calm (@q_each T i f).
Proof.
  intros H. apply calm_bind; [apply calm_act|intros d].
  destruct (dlay d); apply calm_for; intros a; apply calm_for; intros b; apply H.
Qed.
Lemma calm_alone {A} (p : mprog A) : calm p -> forall e s x e' s', malone p e s <> MThrows x e' s'.
Proof.
  induction p as [a|x|u|c k IH]; cbn [calm malone]; try discriminate; try contradiction. intros H e s x e' s' E.
  destruct (mexec c e s) as [[a e1] s1|y s1|u] eqn:X; try discriminate; [exact (IH a (H a) _ _ _ _ _ E)|].
  exact (mexec_nothrow _ _ _ _ _ X).
Qed.
Lemma pcalm_alone {A} (p : prog A) : pcalm p -> forall e s x e' s', alone p e s <> Throws x e' s'.
Proof.
  induction p as [a|x|u|c k IH]; cbn [pcalm alone]; try discriminate; try contradiction. intros H e s x e' s' E.
  destruct (exec c e s) as [[a e1] s1|y s1|u] eqn:X; try discriminate; [exact (IH a (H a) _ _ _ _ _ E)|].
  exact (nothrow_exec _ _ _ _ _ X).
Qed.
Lemma mexec_dims i e (s : mstate) a e' s' : mexec (MDims i) e s = NOk (a, e') s' -> e' = e /\ s' = s.
Proof.
  cbn [mexec]. unfold bindN, lift, named, get_dim, retN. destruct (nth_error (names e) i) as [[o w]|]; [|discriminate].
  cbn [dims]. destruct (nth_error _ _); [|discriminate]. cbn. intros [= <- <- <-]. now destruct s.
Qed.
Lemma looks_alone {A} (p : mprog A) : looks p -> forall e s,
  match malone p e s with MReturns _ e' s' | MThrows _ e' s' => s' = s /\ names e' = names e | MUndefined _ => True end.
Proof.
  induction p as [a|x|u|c k IH]; cbn [looks malone]; auto. destruct c as [c|i|i r c|l]; try contradiction. intros H e s.
  destruct (mexec (MDims i) e s) as [[a e1] s1|y s1|u] eqn:X; auto.
  - destruct (mexec_dims _ _ _ _ _ _ X) as [-> ->]. apply IH, H.
  - contradiction (mexec_nothrow _ _ _ _ _ X).
Qed.
Lemma looks_bind {A B} (p : mprog A) (f : A -> mprog B) : looks p -> (forall a, looks (f a)) -> looks (qbind p f).
Proof. induction p as [a|x|u|c k IH]; simpl; auto. destruct c; auto. Qed.
Lemma early_look {A B} (p : mprog A) (f : A -> mprog B) : looks p -> (forall a, early (f a)) -> early (qbind p f).
Proof.
  intros L H e s x e' s' X. rewrite malone_bind in X. pose proof (looks_alone p L e s) as Y.
  destruct (malone p e s) as [a e1 s1|y e1 s1|u]; try discriminate.
  - destruct Y as [-> <-]. exact (H a _ _ _ _ _ X).
  - injection X as <- <- <-. exact Y.
Qed.
Lemma early_then {A B} (p : mprog A) (f : A -> mprog B) : early p -> (forall a, calm (f a)) -> early (qbind p f).
Proof.
  intros L H e s x e' s' X. rewrite malone_bind in X. destruct (malone p e s) as [a e1 s1|y e1 s1|u] eqn:Y; try discriminate.
  - contradiction (calm_alone _ (H a) _ _ _ _ _ X).
  - injection X as <- <- <-. exact (L _ _ _ _ _ Y).
Qed.
Lemma early_calm {A} (p : mprog A) : calm p -> early p.
Proof. intros H e s x e' s' X. contradiction (calm_alone p H _ _ _ _ _ X). Qed.
Lemma looks_req b x : looks (@qrequire T b x).
Proof. destruct b; exact I. Qed.
Lemma looks_dims x : looks (@q_dims T x).
Proof. induction x; cbn [q_dims]; auto; try exact I; apply looks_bind; auto; intros ?; exact I. Qed.
Lemma looks_build x : looks (@q_build T x).
Proof.
  induction x; cbn [q_build]; auto; try exact I.
  - intros a. exact I.
  - apply looks_bind; auto. intros _. apply looks_bind; auto. intros _.
    apply looks_bind; [apply looks_dims|]. intros n1. apply looks_bind; [apply looks_dims|]. intros n2. apply looks_req.
Qed.
Lemma early_resize triv i r c : early (@q_resize T triv i r c).
Proof.
  change (early (q_resize_with triv true i r c)). unfold q_resize_with.
  apply early_look; [apply looks_req|intros _]. apply early_look; [apply looks_req|intros _]. cbn zeta.
  apply early_look; [intros a; exact I|intros d]. destruct (Nat.eqb _ _); [apply early_calm, calm_act|].
  apply early_then; [|intros _; apply calm_act].
  intros e s x e' s'. rewrite malone_mem; [|apply nonew_plain, plain_realloc].
  destruct (alone _ _ _) as [a e1 h|y e1 h|u] eqn:X; try discriminate. intros [= <- <- <-].
  unfold t_realloc in X. rewrite alone_bind in X. cbn [act alone] in X.
  destruct (exec (CInfo i) e (heap s)) as [[a e0] h0|y0 h0|u0] eqn:X0; try discriminate.
  2:{ contradiction (nothrow_exec _ _ _ _ _ X0). }
  assert (e0 = e /\ h0 = heap s) as [-> ->].
  { revert X0. cbn [exec]. unfold bindM, named, get_obj. destruct (nth_error (names e) i) as [[o w]|]; [|discriminate].
    destruct (nth_error (objs (heap s)) o) as [[v|]|]; try discriminate. intros [= _ <- <-]. auto. }
  rewrite alone_bind in X. unfold t_alloc in X. rewrite alone_bind in X. cbn [act alone exec] in X.
  assert (Cm : forall k, pcalm (pbind (t_destruct triv i (drows d * dcols d)) (fun _ =>
    pbind (pfor (Nat.min (drows d * dcols d) (Z.to_nat r * Z.to_nat c)) 0 (fun j => pbind (act (CCell i j)) (fun y => @act T (CFill k j y)))) (fun _ =>
    pbind (act (CFree i (drows d * dcols d))) (fun _ => act (CAttach i k (Z.to_nat r * Z.to_nat c))))))).
  { intros k. apply pcalm_bind.
    - unfold t_destruct. destruct triv; [exact I|]. apply pcalm_for. intros j a0. exact I.
    - intros _. apply pcalm_bind; [|intros _ a0 a1; exact I]. apply pcalm_for. intros j c0 a0. exact I. }
  destruct (tsched e) as [|[] r0]; cbn [alone] in X.
  - exfalso. exact (pcalm_alone _ (Cm _) _ _ _ _ _ X).
  - exfalso. exact (pcalm_alone _ (Cm _) _ _ _ _ _ X).
  - injection X as <- <- <-. cbn [names]. split; [now destruct s|reflexivity].
Qed.
Lemma early_assign triv i x : early (@q_assign T triv i x).
Proof.
  apply early_look; [apply looks_build|intros _]. apply early_look; [apply looks_dims|intros n].
  apply early_then; [apply early_resize|intros _]. apply calm_each. intros r c.
  apply calm_bind; [apply calm_read|intros y; apply calm_put].
Qed.

(** ** A local matrix and its block *)
Lemma malone_scope triv ns i o o' body hbody e s : nth_error ns i = Some (o, true) -> early body ->
  agrN (minv ns (hold2 o o')) (fun _ => minv ns (hold2 o o')) body (hbody o) -> minv ns (hold2 o o') e s ->
  macts_as e s (q_scope triv i body) (fun s0 => match hbody o s0 with
    | NOk _ s1 => h_dtor triv o s1
    | NThrow x s1 => match h_dtor triv o s1 with NOk _ s2 => NThrow x s2 | NThrow x' s2 => NThrow x' s2 | NUB u => NUB u end
    | NUB u => NUB u
    end).
Proof.
  intros Hi Er Ag HI. unfold macts_as, q_scope. rewrite malone_bind, malone_catch. pose proof (Ag e s HI) as A.
  pose proof (agrN_dtor ns triv i o o' Hi) as D.
  destruct (malone body e s) as [a e1 s1|x e1 s1|u] eqn:X.
  - destruct A as [-> HI1]. specialize (D e1 s1 HI1). destruct (malone (q_dtor triv i) e1 s1); auto. exact (proj1 D).
  - rewrite A. destruct (Er _ _ _ _ _ X) as [-> N].
    assert (HI1 : minv ns (hold2 o o') e1 s) by (destruct HI as [N0 H0]; split; [congruence|exact H0]).
    specialize (D e1 s HI1). rewrite malone_bind. destruct (malone (q_dtor triv i) e1 s); auto.
    + destruct D as [-> _]. reflexivity.
    + now rewrite D.
    + now rewrite D.
  - now rewrite A.
Qed.
Lemma mknown_snoc l (x : hexpr T) z : mknown l x -> mknown (l ++ [z]) x /\ mresolve (l ++ [z]) x = mresolve l x.
Proof.
  induction x; simpl; auto.
  - intros H. rewrite app_length. split; [simpl; lia|]. unfold obj_of. now rewrite nth_error_app1.
  - intros H. destruct (IHx H) as [? ->]. auto.
  - intros [H1 H2]. destruct (IHx1 H1) as [? ->], (IHx2 H2) as [? ->]. auto.
  - intros H. destruct (IHx H) as [? ->]. auto.
  - intros H. destruct (IHx H) as [? ->]. auto.
Qed.
Lemma name_snoc (l : list (nat * bool)) x : nth_error (l ++ [x]) (length l) = Some x.
Proof. rewrite nth_error_snoc. now destruct (Nat.eq_dec _ _). Qed.
(** the throw of the copy leaves no matrix (MHeapModel.v forgets the object, the thread's
    list keeps a dead entry) *)
Definition acts_up_to_dead {A} (e : tenv) (s : mstate) (p : mprog A) (m : N T A) : Prop :=
  match malone p e s with
  | MReturns a e' s' => m (mwith_sched s (tsched e)) = NOk a (mwith_sched s' (tsched e'))
  | MThrows x e' s' => m (mwith_sched s (tsched e)) = NThrow x (mwith_sched s' (tsched e')) \/
                       m (mwith_sched s (tsched e)) = NThrow x (mwith_sched (mdrop s') (tsched e'))
  | MUndefined u => m (mwith_sched s (tsched e)) = NUB u
  end.
Lemma malone_transpose triv i o e s : wf s -> nth_error (names e) i = Some (o, true) ->
  htidy o (objs (heap s)) (dims s) ->
  acts_up_to_dead e s (q_transpose triv i) (h_transpose triv o).
Proof.
  intros W Hi Ht. unfold acts_up_to_dead, q_transpose, h_transpose. cbn [qact qbind malone].
  destruct (obj_of_at (names e) i o true Hi) as [Ho Hl].
  cbn [mexec]. unfold bindN at 1 2 3, lift at 1. rewrite (named_at (names e) e (heap s) i eq_refl Hl). rewrite Ho.
  unfold get_dim. cbn [dims mwith_sched].
  unfold bindN at 1 2 3. destruct (nth_error (dims s) o) as [d|] eqn:D; [cbn [retN]|change (dims (mwith_sched s (tsched e))) with (dims s); now rewrite D].
  replace (MSt (heap s) (dims s)) with s by now destruct s.
  rewrite malone_bind. set (t := length (objs (heap s))). set (ns := names e ++ [(t, true)]).
  assert (Hi' : nth_error ns i = Some (o, true)) by (unfold ns; rewrite nth_error_app1; auto).
  destruct (mknown_snoc (names e) (HObj i) (t, true) Hl) as [K R]. cbn [mresolve] in R. rewrite Ho in R.
  pose proof (agrN_assign ns triv (length (names e)) t o (HObj i) (name_snoc _ _) K) as Ag. cbn [mresolve] in Ag.
  injection R as R. fold ns in R. rewrite R in Ag.
  pose proof (malone_ctor (dlay d) (fun t => q_assign triv t (HObj i)) (fun t => h_assign triv t (HObj o)) e s o _ W
    (mplain_assign triv _ _) Ht Ag) as C.
  unfold with_local, h_ctor_expr, bindN. change (dims (mwith_sched s (tsched e))) with (dims s). rewrite D.
  destruct (malone (q_ctor _ _) e s) as [j e1 s1|x e1 s1|u].
  - destruct C as (-> & -> & N & HJ).
    assert (Kt : @mknown T ns (HTrans (HObj (length (names e))))) by (simpl; unfold ns; rewrite app_length; simpl; lia).
    pose proof (agrN_assign ns triv i o t (HTrans (HObj (length (names e)))) Hi' Kt) as Ag2. cbn [mresolve] in Ag2.
    assert (Rt : obj_of ns (length (names e)) = t) by (unfold obj_of, ns; now rewrite name_snoc). rewrite Rt in Ag2.
    assert (Ag3 : agrN (minv ns (hold2 t o)) (fun _ => minv ns (hold2 t o)) (q_assign triv i (HTrans (HObj (length (names e)))))
                    ((fun t => h_assign triv o (HTrans (HObj t))) t)).
    { eapply agrN_weak; [| |exact Ag2]; [intros e0 s0 [A [B C]]|intros _ e0 s0 [A [B C]]]; (split; [exact A|split; [exact C|exact B]]). }
    pose proof (malone_scope triv ns (length (names e)) t o _ (fun t => h_assign triv o (HTrans (HObj t))) e1 s1
      (name_snoc _ _) (early_assign _ _ _) Ag3 HJ) as Sc.
    unfold macts_as in Sc. destruct (malone (q_scope _ _ _) e1 s1) as [a e2 s2|x e2 s2|u]; auto.
  - right. now rewrite C.
  - now rewrite C.
Qed.

(** ** Products *)
Context {O : Ops T}.
Lemma agrN_inner ns (P : mpr) i1 i2 o1 o2 w1 w2 r c : nth_error ns i1 = Some (o1, w1) -> nth_error ns i2 = Some (o2, w2) -> forall n k acc,
  agrN (minv ns P) (fun _ => minv ns P) (q_inner i1 i2 r c n k acc) (h_inner o1 o2 r c n k acc).
Proof.
  intros H1 H2. induction n as [|n IH]; intros k acc; cbn [q_inner h_inner]; [now apply agrN_ret|].
  eapply agrN_bind; [now apply (agrN_get' ns P i1 r k o1 w1)|intros x].
  eapply agrN_bind; [now apply (agrN_get' ns P i2 k c o2 w2)|intros y]. apply IH.
Qed.
Lemma calm_inner i1 i2 r c n : forall k acc, calm (q_inner i1 i2 r c n k acc).
Proof.
  induction n as [|n IH]; intros k acc; cbn [q_inner]; [exact I|].
  apply calm_bind; [apply calm_get|intros x]. apply calm_bind; [apply calm_get|intros y]. apply IH.
Qed.
Lemma bindN_dim {A} o (g : dim -> N T A) s : bindN (get_dim o) g s =
  match nth_error (dims s) o with Some d => g d s | None => NUB UBMem end.
Proof. unfold bindN, get_dim. now destruct (nth_error (dims s) o). Qed.
Lemma malone_dims {A} i o w (f : dim -> mprog A) e s : nth_error (names e) i = Some (o, w) ->
  malone (qbind (qact (MDims i)) f) e s = match nth_error (dims s) o with Some d => malone (f d) e s | None => MUndefined UBMem end.
Proof.
  intros H. cbn [qact qbind malone mexec]. unfold bindN, lift, named. rewrite H. unfold get_dim. cbn [dims].
  destruct (nth_error (dims s) o); auto. cbn [retN]. now destruct s.
Qed.
Lemma malone_product triv l i1 i2 o1 o2 w1 w2 e s : wf s ->
  nth_error (names e) i1 = Some (o1, w1) -> nth_error (names e) i2 = Some (o2, w2) ->
  let o := length (objs (heap s)) in
  match malone (q_product triv l i1 i2) e s with
  | MReturns i e' s' => h_product triv l o1 o2 (mwith_sched s (tsched e)) = NOk o (mwith_sched s' (tsched e')) /\
                        i = length (names e) /\ names e' = names e ++ [(o, true)]
  | MThrows x e' s' => h_product triv l o1 o2 (mwith_sched s (tsched e)) = NThrow x (mwith_sched s' (tsched e'))
  | MUndefined u => h_product triv l o1 o2 (mwith_sched s (tsched e)) = NUB u
  end.
Proof.
  intros W H1 H2 o. remember (h_product triv l o1 o2 (mwith_sched s (tsched e))) as R eqn:HR. unfold h_product in HR. unfold q_product.
  destruct (obj_of_at (names e) i1 o1 w1 H1) as [Ho1 Hl1]. destruct (obj_of_at (names e) i2 o2 w2 H2) as [Ho2 Hl2].
  rewrite (malone_dims i1 o1 w1 _ _ _ H1). rewrite bindN_dim in HR. change (dims (mwith_sched s (tsched e))) with (dims s) in HR.
  destruct (nth_error (dims s) o1) as [d1|]; auto.
  rewrite (malone_dims i2 o2 w2 _ _ _ H2). rewrite bindN_dim in HR. change (dims (mwith_sched s (tsched e))) with (dims s) in HR.
  destruct (nth_error (dims s) o2) as [d2|]; auto.
  unfold bindN at 1, requireN in HR. unfold qrequire. destruct (Nat.eqb (dcols d1) (drows d2)); cbn [qbind]; [|exact HR].
  cbn [retN] in HR. unfold bindN at 1, h_default in HR. cbn [qact qbind malone mexec]. unfold bindN at 1, h_default, retN at 1. fold (born l s). fold o.
  fold (naming e o). change (length (objs (heap (mwith_sched s (tsched e))))) with o in HR.
  match type of HR with context [MSt ?a ?b] => change (MSt a b) with (mwith_sched (born l s) (tsched (naming e o))) in HR end.
  rewrite malone_bind, malone_catch. set (t := length (names e)). set (ns := names e ++ [(o, true)]).
  match goal with |- context [malone ?p (naming e o) (born l s)] => set (body := p) end.
  match type of HR with context [match ?m (mwith_sched (born l s) _) with NOk _ _ => _ | _ => _ end] => set (hbody := m) in HR end.
  assert (G1 : nth_error ns i1 = Some (o1, w1)) by (unfold ns; rewrite nth_error_app1; auto).
  assert (G2 : nth_error ns i2 = Some (o2, w2)) by (unfold ns; rewrite nth_error_app1; auto).
  assert (Gt : nth_error ns t = Some (o, true)) by apply name_snoc.
  assert (Ag : agrN (minv ns (hold2 o o)) (fun _ => minv ns (hold2 o o)) body hbody).
  { unfold body, hbody. eapply agrN_bind; [now apply agrN_resize|intros ?]. apply agrN_for. intros r. apply agrN_for. intros c.
    eapply agrN_bind; [now apply (agrN_get' ns _ i1 r 0 o1 w1)|intros x].
    eapply agrN_bind; [now apply (agrN_get' ns _ i2 0 c o2 w2)|intros y].
    eapply agrN_bind; [now apply (agrN_inner ns _ i1 i2 o1 o2 w1 w2)|intros m]. now apply agrN_put. }
  assert (Er : early body).
  { unfold body. apply early_then; [apply early_resize|intros _]. apply calm_for. intros r. apply calm_for. intros c.
    apply calm_bind; [apply calm_get|intros x]. apply calm_bind; [apply calm_get|intros y].
    apply calm_bind; [apply calm_inner|intros m; apply calm_put]. }
  assert (HI : minv ns (hold2 o o) (naming e o) (born l s)) by (split; [reflexivity|split; apply hold_born; auto]).
  pose proof (Ag _ _ HI) as A. destruct (malone body (naming e o) (born l s)) as [a e1 s1|x e1 s1|u] eqn:X.
  - destruct A as [A [N _]]. rewrite A in HR. cbn [malone]. auto.
  - rewrite A in HR. destruct (Er _ _ _ _ _ X) as [-> N].
    assert (HI1 : minv ns (hold2 o o) e1 (born l s)) by (split; [exact N|exact (proj2 HI)]).
    pose proof (agrN_dtor ns triv t o o Gt e1 (born l s) HI1) as D. rewrite malone_bind.
    destruct (malone (q_dtor triv t) e1 (born l s)).
    + destruct D as [D _]. rewrite D in HR. exact HR.
    + rewrite D in HR. exact HR.
    + rewrite D in HR. exact HR.
  - rewrite A in HR. exact HR.
Qed.
End MRefine.
