(** Proofs about MHeapModel.v: storage of dynamic matrices. *)
From Coq Require Import List ZArith Bool Arith Lia.
From Verif Require Import Base BaseFacts HeapModel HeapSpec HeapFacts HeapProofs HeapAssign Ownership
  MatModel MatProofs MHeapModel MHeapSpec.
Import ListNotations.

Section MHeapFacts.
Context {T : Type}.
Notation mstate := (mstate T).
Notation hexpr := (hexpr T).
Notation N := (N T).

Lemma bindN_ok {A B} (m : N A) (f : A -> N B) s a s1 :
  m s = NOk a s1 -> bindN m f s = f a s1.
Proof. unfold bindN; intros ->; reflexivity. Qed.
Lemma bindN_throw {A B} (m : N A) (f : A -> N B) s e s1 :
  m s = NThrow e s1 -> bindN m f s = NThrow e s1.
Proof. unfold bindN; intros ->; reflexivity. Qed.
Lemma bindN_ub {A B} (m : N A) (f : A -> N B) s u :
  m s = NUB u -> bindN m f s = NUB u.
Proof. unfold bindN; intros ->; reflexivity. Qed.

Lemma lift_ok {A} (m : M T A) s a h : m (heap s) = ROk a h -> lift m s = NOk a (MSt h (dims s)).
Proof. unfold lift; intros ->; reflexivity. Qed.

Lemma mstate_eta (s : mstate) : MSt (heap s) (dims s) = s.
Proof. destruct s; reflexivity. Qed.

(** ** dims *)
Lemma ms_dim (s : mstate) o : memory_sound s -> exists_m s o ->
  nth_error (dims s) o = Some (m_dim s o).
Proof.
  intros [_ [Hl _]] [v Hv]. unfold m_dim. apply nth_error_nth'. rewrite Hl.
  apply nth_error_Some; congruence.
Qed.
Lemma get_dim_ok (s : mstate) o : memory_sound s -> exists_m s o -> get_dim o s = NOk (m_dim s o) s.
Proof. intros H He. unfold get_dim. now rewrite (ms_dim s o H He). Qed.

Lemma m_dim_of (s : mstate) o d : nth_error (dims s) o = Some d -> m_dim s o = d.
Proof. intros H. unfold m_dim. erewrite nth_error_nth; eauto. Qed.

Lemma set_dim_ok (s : mstate) o r c : o < length (dims s) -> exists ds,
  set_dim o r c s = NOk tt (MSt (heap s) ds) /\ length ds = length (dims s) /\
  forall o', nth o' ds (Dim 0 0 row_major) =
    if Nat.eq_dec o' o then Dim r c (dlay (m_dim s o)) else m_dim s o'.
Proof.
  intros Hlt. unfold set_dim. destruct (nth_error (dims s) o) as [d|] eqn:E.
  - destruct (list_put_Some (dims s) o (Dim r c (dlay d)) Hlt) as [ds Ed]. rewrite Ed.
    exists ds. split; auto. split; [eapply list_put_length; eauto|].
    intros o'. rewrite (m_dim_of _ _ _ E).
    assert (Hn := nth_error_list_put _ _ _ _ o' Ed).
    destruct (Nat.eq_dec o' o) as [->|Hne].
    + erewrite nth_error_nth; [reflexivity|]. exact Hn.
    + unfold m_dim. destruct (nth_error (dims s) o') as [d'|] eqn:E'.
      * erewrite nth_error_nth; eauto. erewrite nth_error_nth; eauto.
      * rewrite nth_overflow by (apply nth_error_None; congruence).
        rewrite nth_overflow; auto. apply nth_error_None; auto.
  - apply nth_error_None in E. lia.
Qed.

(** ** h_resize in terms of the vector resize *)
Definition after_dim (o r c : nat) (ds : list dim) (x : res T unit) : nres T unit :=
  match x with
  | ROk _ h => set_dim o r c (MSt h ds)
  | RThrow e h => NThrow e (MSt h ds)
  | RUB u => NUB u
  end.

Lemma h_resize_run (s : mstate) o r c v : memory_sound s ->
  nth_error (objs (heap s)) o = Some (Some v) ->
  h_resize true o (Z.of_nat r) (Z.of_nat c) s =
  after_dim o r c (dims s) (HeapModel.resize true o (Z.of_nat (r * c)) (heap s)).
Proof.
  intros Hs Hv. unfold h_resize, requireN.
  rewrite (bindN_ok _ _ s tt s) by (destruct (Z.leb_spec 0 (Z.of_nat r)); [reflexivity|lia]).
  rewrite (bindN_ok _ _ s tt s) by (destruct (Z.leb_spec 0 (Z.of_nat c)); [reflexivity|lia]).
  rewrite !Nat2Z.id.
  rewrite (bindN_ok _ _ s _ s) by (apply get_dim_ok; [auto|exists v; auto]).
  destruct Hs as [_ [_ Hz]]. rewrite <- (Hz o v Hv).
  unfold HeapModel.resize.
  rewrite (bindM_ok _ _ _ tt (heap s)) by (apply requireM_true; apply Z.leb_le; lia).
  rewrite (bindM_ok _ _ _ v (heap s)) by (apply get_obj_ok; auto).
  destruct (Nat.eqb_spec (r * c) (olen v)) as [E|E];
    destruct (Z.eqb_spec (Z.of_nat (r * c)) (Z.of_nat (olen v))); try lia.
  { simpl. now rewrite mstate_eta. }
  rewrite (bindN_ok _ _ s v s).
  2:{ erewrite lift_ok; [|apply get_obj_ok; eauto]. now rewrite mstate_eta. }
  rewrite Nat2Z.id. unfold bindN, lift, bindM.
  destruct (alloc (r * c) (heap s)) as [cp h1|e h1|u]; simpl; auto.
  destruct (oaddr v) as [[b off]|]; simpl.
  - match goal with |- context [forM ?n 0 ?f h1] => destruct (forM n 0 f h1) as [[] h2|e h2|u]; simpl; auto end.
    destruct (dealloc (Some (b, off)) (olen v) h2) as [[] h3|e h3|u] eqn:E3; simpl in E3; rewrite E3; simpl; auto.
    destruct (set_obj o _ h3) as [[] h4|e h4|u]; auto.
  - destruct (set_obj o _ h1) as [[] h4|e h4|u]; auto.
Qed.

Lemma h_resize_fast_run (s : mstate) o r c v : memory_sound s ->
  nth_error (objs (heap s)) o = Some (Some v) ->
  h_resize_fast true o (Z.of_nat r) (Z.of_nat c) s =
  after_dim o r c (dims s) (resize_fast true o (Z.of_nat (r * c)) (heap s)).
Proof.
  intros Hs Hv. unfold h_resize_fast, requireN.
  rewrite (bindN_ok _ _ s tt s) by (destruct (Z.leb_spec 0 (Z.of_nat r)); [reflexivity|lia]).
  rewrite (bindN_ok _ _ s tt s) by (destruct (Z.leb_spec 0 (Z.of_nat c)); [reflexivity|lia]).
  rewrite !Nat2Z.id.
  rewrite (bindN_ok _ _ s _ s) by (apply get_dim_ok; [auto|exists v; auto]).
  destruct Hs as [_ [_ Hz]]. rewrite <- (Hz o v Hv).
  unfold resize_fast.
  rewrite (bindM_ok _ _ _ tt (heap s)) by (apply requireM_true; apply Z.leb_le; lia).
  rewrite (bindM_ok _ _ _ v (heap s)) by (apply get_obj_ok; auto).
  destruct (Nat.eqb_spec (r * c) (olen v)) as [E|E];
    destruct (Z.eqb_spec (Z.of_nat (r * c)) (Z.of_nat (olen v))); try lia.
  { simpl. now rewrite mstate_eta. }
  rewrite (bindN_ok _ _ s v s).
  2:{ erewrite lift_ok; [|apply get_obj_ok; eauto]. now rewrite mstate_eta. }
  rewrite Nat2Z.id. unfold bindN, lift, bindM.
  destruct (alloc (r * c) (heap s)) as [cp h1|e h1|u]; simpl; auto.
  destruct (dealloc (oaddr v) (olen v) h1) as [[] h3|e h3|u]; simpl; auto.
  destruct (set_obj o _ h3) as [[] h4|e h4|u]; auto.
Qed.

(** ** Effect of resize *)
Record mresized (s s' : mstate) (o r c keep : nat) : Prop := {
  mr_sound : memory_sound s';
  mr_dim : m_dim s' o = Dim r c (dlay (m_dim s o));
  mr_dim_other : forall o', o' <> o -> m_dim s' o' = m_dim s o';
  mr_len : length (objs (heap s')) = length (objs (heap s));
  mr_exists : forall o', exists_m s' o' <-> exists_m s o';
  mr_other : forall o' k, o' <> o -> exists_m s o' ->
     k < drows (m_dim s o') * dcols (m_dim s o') -> lincell s' o' k = lincell s o' k;
  mr_keep : forall k, k < keep -> lincell s' o k = lincell s o k;
  mr_rest : forall k, keep <= k < r * c -> lincell s' o k = Some None }.

(** what [resized] and set_dim make of a sound state *)
Lemma resized_mresized (s : mstate) h o v r c keep ds :
  memory_sound s -> nth_error (objs (heap s)) o = Some (Some v) ->
  HeapProofs.resized (heap s) h o v (r * c) keep -> keep <= olen v -> keep <= r * c ->
  length ds = length (dims s) ->
  (forall o', nth o' ds (Dim 0 0 row_major) =
     if Nat.eq_dec o' o then Dim r c (dlay (m_dim s o)) else m_dim s o') ->
  mresized s (MSt h ds) o r c keep.
Proof.
  intros Hs Hv R Hk Hk2 Hl Hd. destruct Hs as [Hs [Hlen Hz]].
  assert (Hob := rs_objs _ _ _ _ _ _ R).
  assert (Ho : nth_error (objs h) o = Some (Some (VObj (okind v) (Some (length (blocks (heap s)), 0)) (r * c)))).
  { rewrite Hob. destruct (Nat.eq_dec o o); congruence. }
  assert (Hd' : forall o', m_dim (MSt h ds) o' =
     if Nat.eq_dec o' o then Dim r c (dlay (m_dim s o)) else m_dim s o') by exact Hd.
  split.
  - split; [|split].
    + eapply sound_resized; eauto.
    + simpl. rewrite Hl, Hlen. symmetry. apply (rs_len _ _ _ _ _ _ R).
    + intros o' v' H. cbn [heap] in H. rewrite Hob in H. rewrite Hd'.
      destruct (Nat.eq_dec o' o) as [->|]; [injection H as <-; reflexivity|auto].
  - rewrite Hd'. destruct (Nat.eq_dec o o); congruence.
  - intros o' H. rewrite Hd'. destruct (Nat.eq_dec o' o); congruence.
  - apply (rs_len _ _ _ _ _ _ R).
  - intros o'. unfold exists_m. cbn [heap]. rewrite Hob. destruct (Nat.eq_dec o' o) as [->|]; [|tauto].
    split; intros; eauto.
  - intros o' k Hne [v' Hv'] Hlt. unfold lincell. cbn [heap]. rewrite Hob.
    destruct (Nat.eq_dec o' o); [congruence|]. rewrite Hv'.
    destruct Hs as [A [B C]]. destruct (A o' v' Hv') as [v'' [X [Y Z]]]. rewrite Hv' in X. injection X as <-.
    destruct (oaddr v') as [[b off]|] eqn:Ea; auto. destruct Z as [-> [cs [Z1 Z2]]].
    apply cellat_get_block. apply (rs_other _ _ _ _ _ _ R).
    + apply get_block_bound in Z1. lia.
    + intros off Eo. apply Hne. eapply B; eauto.
  - intros k Hkk. unfold lincell. cbn [heap]. rewrite Ho, Hv. cbn [oaddr].
    destruct (oaddr v) as [[b off]|] eqn:Ea.
    + simpl. apply (rs_keep _ _ _ _ _ _ R); auto.
    + exfalso. destruct Hs as [A _]. destruct (A o v Hv) as [v'' [X [Y Z]]]. rewrite Hv in X. injection X as <-.
      rewrite Ea in Z. lia.
  - intros k Hkk. unfold lincell. cbn [heap]. rewrite Ho. cbn [oaddr]. simpl.
    apply (rs_rest _ _ _ _ _ _ R); auto.
Qed.

Lemma redim_mresized (s : mstate) o v r c ds :
  memory_sound s -> nth_error (objs (heap s)) o = Some (Some v) -> r * c = olen v ->
  length ds = length (dims s) ->
  (forall o', nth o' ds (Dim 0 0 row_major) =
     if Nat.eq_dec o' o then Dim r c (dlay (m_dim s o)) else m_dim s o') ->
  mresized s (MSt (heap s) ds) o r c (r * c).
Proof.
  intros Hs Hv Hn Hl Hd. destruct Hs as [Hs [Hlen Hz]].
  assert (Hd' : forall o', m_dim (MSt (heap s) ds) o' =
     if Nat.eq_dec o' o then Dim r c (dlay (m_dim s o)) else m_dim s o') by exact Hd.
  split; auto.
  - split; [|split]; auto; [simpl; lia|]. intros o' v' H. simpl in H. rewrite Hd'.
    destruct (Nat.eq_dec o' o) as [->|]; [|auto]. rewrite Hv in H. injection H as <-. auto.
  - rewrite Hd'. destruct (Nat.eq_dec o o); congruence.
  - intros o' H. rewrite Hd'. destruct (Nat.eq_dec o' o); congruence.
  - intros o'. reflexivity.
  - lia.
Qed.

(** the outcomes of resize *)
Definition only_sched (s s' : mstate) : Prop :=
  blocks (heap s') = blocks (heap s) /\ objs (heap s') = objs (heap s) /\ dims s' = dims s.

Lemma h_resize_spec (s : mstate) o r c v : memory_sound s ->
  nth_error (objs (heap s)) o = Some (Some v) ->
  (exists s', h_resize true o (Z.of_nat r) (Z.of_nat c) s = NThrow EBadAlloc s' /\ only_sched s s' /\
     ~ alloc_ok s /\ r * c <> olen v) \/
  (exists s', h_resize true o (Z.of_nat r) (Z.of_nat c) s = NOk tt s' /\
     mresized s s' o r c (Nat.min (olen v) (r * c))).
Proof.
  intros Hs Hv. rewrite (h_resize_run s o r c v) by auto.
  assert (Hlt : o < length (dims s)).
  { destruct Hs as [_ [-> _]]. apply nth_error_Some; congruence. }
  destruct (Nat.eq_dec (r * c) (olen v)) as [E|E].
  - rewrite E, (resize_same (heap s) o v) by auto. cbn [after_dim]. rewrite mstate_eta.
    destruct (set_dim_ok s o r c Hlt) as [ds [E1 [E2 E3]]]. right. eexists. split; [exact E1|].
    rewrite Nat.min_id, <- E. eapply redim_mresized; eauto.
  - destruct (resize_spec (heap s) o v (r * c) Hv) as [[rr [Hr ->]]|[_ [h [-> R]]]]; auto.
    + eapply owned_of_owns; eauto. destruct Hs as [[A _] _]. eauto.
    + left. eexists. split; [reflexivity|]. split; [repeat split|]. split; auto.
      unfold alloc_ok, alloc_succeeds. rewrite Hr. discriminate.
    + right. cbn [after_dim].
      destruct (set_dim_ok (MSt h (dims s)) o r c Hlt) as [ds [E1 [E2 E3]]]. eexists. split; [exact E1|].
      eapply resized_mresized; eauto; lia.
Qed.

Lemma h_resize_fast_spec (s : mstate) o r c v : memory_sound s ->
  nth_error (objs (heap s)) o = Some (Some v) ->
  (exists s', h_resize_fast true o (Z.of_nat r) (Z.of_nat c) s = NThrow EBadAlloc s' /\ only_sched s s' /\
     ~ alloc_ok s) \/
  (exists s' keep, h_resize_fast true o (Z.of_nat r) (Z.of_nat c) s = NOk tt s' /\
     mresized s s' o r c keep).
Proof.
  intros Hs Hv. rewrite (h_resize_fast_run s o r c v) by auto.
  assert (Hlt : o < length (dims s)).
  { destruct Hs as [_ [-> _]]. apply nth_error_Some; congruence. }
  destruct (Nat.eq_dec (r * c) (olen v)) as [E|E].
  - assert (Ef : resize_fast true o (Z.of_nat (olen v)) (heap s) = ROk tt (heap s)).
    { unfold resize_fast.
      rewrite (bindM_ok _ _ _ tt (heap s)) by (apply requireM_true; apply Z.leb_le; lia).
      rewrite (bindM_ok _ _ _ v (heap s)) by (apply get_obj_ok; auto). now rewrite Z.eqb_refl. }
    rewrite E, Ef. cbn [after_dim]. rewrite mstate_eta.
    destruct (set_dim_ok s o r c Hlt) as [ds [E1 [E2 E3]]]. right. do 2 eexists. split; [exact E1|].
    eapply redim_mresized; eauto.
  - destruct (resize_fast_spec (heap s) o (r * c) v) as [[rr [Hr ->]]|[_ [h [-> R]]]]; auto.
    + apply Hs.
    + left. eexists. split; [reflexivity|]. split; [repeat split|]. unfold alloc_ok, alloc_succeeds. rewrite Hr.
      discriminate.
    + right. cbn [after_dim].
      destruct (set_dim_ok (MSt h (dims s)) o r c Hlt) as [ds [E1 [E2 E3]]]. do 2 eexists. split; [exact E1|].
      eapply resized_mresized; eauto; lia.
Qed.

Lemma h_resize_neg (s : mstate) o rows cols : (rows < 0 \/ cols < 0)%Z ->
  h_resize true o rows cols s = NThrow EInvalidArgument s /\
  h_resize_fast true o rows cols s = NThrow EInvalidArgument s.
Proof.
  intros H. unfold h_resize, h_resize_fast, bindN, requireN.
  destruct (Z.leb_spec 0 rows); auto. destruct (Z.leb_spec 0 cols); auto. lia.
Qed.

(** ** Element access *)
Definition in_m (s : mstate) (o i j : nat) : Prop :=
  exists_m s o /\ i < drows (m_dim s o) /\ j < dcols (m_dim s o).
Definition pos (s : mstate) (o i j : nat) : nat :=
  index (dlay (m_dim s o)) (drows (m_dim s o)) (dcols (m_dim s o)) i j.

Lemma lincell_some (s : mstate) o v k : memory_sound s -> nth_error (objs (heap s)) o = Some (Some v) ->
  k < drows (m_dim s o) * dcols (m_dim s o) ->
  exists b cl, oaddr v = Some (b, 0) /\ cellat (heap s) b k = Some cl /\ lincell s o k = Some cl.
Proof.
  intros [Hs [_ Hz]] Hv Hk. rewrite <- (Hz o v Hv) in Hk.
  destruct (obj_ok_cell (heap s) o v k) as [b [off [cl [E1 E2]]]]; auto; [eapply sound_obj_ok; eauto|].
  destruct Hs as [A _]. destruct (A o v Hv) as [v' [X [_ Z]]]. rewrite Hv in X. injection X as <-.
  rewrite E1 in Z. destruct Z as [-> _]. exists b, cl. split; auto. split; auto.
  unfold lincell. now rewrite Hv, E1.
Qed.

Lemma h_get_ok (s : mstate) o i j : memory_sound s -> in_m s o i j ->
  match element s o i j with
  | Some x => h_get o i j s = NOk x s
  | None => h_get o i j s = NUB UBIndet
  end.
Proof.
  intros Hs [[v Hv] [Hi Hj]]. unfold h_get. rewrite (bindN_ok _ _ s _ s) by (apply get_dim_ok; [auto|exists v; auto]).
  destruct (lincell_some s o v (pos s o i j) Hs Hv) as [b [cl [E1 [E2 E3]]]]; [apply index_bound; auto|].
  unfold element. cbv zeta. fold (pos s o i j). rewrite E3.
  unfold lift, obj_get. rewrite (bindM_ok _ _ _ v (heap s)) by (apply get_obj_ok; auto). rewrite E1.
  unfold HeapModel.rd. simpl. rewrite (bindM_ok _ _ _ _ _ (rd_cell_ok _ _ _ _ E2)).
  destruct cl; simpl; auto. now rewrite mstate_eta.
Qed.

(** the state between two stores of a loop: same objects, same sizes *)
Definition steady (s0 s : mstate) : Prop := same_shape (heap s0) (heap s) /\ dims s = dims s0.

Lemma steady_refl (s : mstate) : steady s s.
Proof. split; auto. apply same_shape_refl. Qed.
Lemma steady_trans (s1 s2 s3 : mstate) : steady s1 s2 -> steady s2 s3 -> steady s1 s3.
Proof. intros [A B] [C D]. split; [eapply same_shape_trans; eauto|congruence]. Qed.
Lemma steady_dim (s0 s : mstate) o : steady s0 s -> m_dim s o = m_dim s0 o.
Proof. intros [_ H]. unfold m_dim. now rewrite H. Qed.
Lemma steady_exists (s0 s : mstate) o : steady s0 s -> exists_m s o <-> exists_m s0 o.
Proof. intros [[H _] _]. unfold exists_m. now rewrite H. Qed.
Lemma steady_sound (s0 s : mstate) : steady s0 s -> memory_sound s0 -> memory_sound s.
Proof.
  intros St [A [B C]]. assert (Hd := steady_dim s0 s). destruct St as [Sh D]. split; [|split].
  - eapply sound_shape; eauto.
  - rewrite D. destruct Sh as [-> _]. auto.
  - intros o v Hv. rewrite Hd by (split; auto). apply C. destruct Sh as [E _]. now rewrite <- E.
Qed.
Lemma steady_in (s0 s : mstate) o i j : steady s0 s -> in_m s0 o i j -> in_m s o i j.
Proof.
  intros St [A B]. split; [apply (steady_exists s0 s); auto|]. now rewrite (steady_dim s0 s) by auto.
Qed.

Lemma h_put_ok (s : mstate) o i j x : memory_sound s -> in_m s o i j ->
  exists s', h_put o i j x s = NOk tt s' /\ steady s s' /\
    forall o' k, exists_m s o' ->
      lincell s' o' k = if Nat.eq_dec o' o then if Nat.eq_dec k (pos s o i j) then Some (Some x)
                                                else lincell s o' k
                        else lincell s o' k.
Proof.
  intros Hs [[v Hv] [Hi Hj]]. unfold h_put.
  rewrite (bindN_ok _ _ s _ s) by (apply get_dim_ok; [auto|exists v; auto]).
  destruct (lincell_some s o v (pos s o i j) Hs Hv) as [b [cl [E1 [E2 E3]]]]; [apply index_bound; auto|].
  fold (pos s o i j). unfold lift, obj_put.
  rewrite (bindM_ok _ _ _ v (heap s)) by (apply get_obj_ok; auto). rewrite E1. simpl.
  destruct (wr_cell_ok (heap s) b (pos s o i j) (Some x) cl E2) as [h [E4 [Sh Hc]]]. rewrite E4.
  exists (MSt h (dims s)). split; auto. split; [split; auto|].
  intros o' k [v' Hv']. unfold lincell. cbn [heap]. destruct Sh as [Eo _]. rewrite Eo, Hv'.
  destruct (Nat.eq_dec o' o) as [->|Hne].
  - rewrite Hv in Hv'. injection Hv' as <-. rewrite E1, Hc. simpl.
    destruct (Nat.eq_dec b b); [|congruence]. destruct (Nat.eq_dec k (pos s o i j)); auto.
  - destruct (oaddr v') as [[b' off']|] eqn:Ea; auto. rewrite Hc.
    destruct (Nat.eq_dec b' b) as [->|]; auto. exfalso. apply Hne.
    destruct Hs as [[_ [B _]] _]. eapply B; eauto.
Qed.

(** ** Loops *)
Lemma forN_inv (I : nat -> mstate -> Prop) (f : nat -> N unit) n : forall i s,
  I i s ->
  (forall k s, i <= k < i + n -> I k s -> exists s', f k s = NOk tt s' /\ I (S k) s') ->
  exists s', forN n i f s = NOk tt s' /\ I (i + n) s'.
Proof.
  induction n as [|n IH]; intros i s H0 Hs; simpl.
  - exists s. rewrite Nat.add_0_r. auto.
  - destruct (Hs i s) as [s1 [E1 H1]]; auto; [lia|]. rewrite (bindN_ok _ _ _ _ _ E1).
    destruct (IH (S i) s1 H1) as [s2 [E2 H2]].
    + intros k s' Hk Hi. apply Hs; auto. lia.
    + exists s2. split; auto. replace (i + S n) with (S i + n) by lia. auto.
Qed.

Lemma forN_safe (I : mstate -> Prop) (f : nat -> N unit) n : forall i s,
  I s ->
  (forall k s, i <= k < i + n -> I s ->
     (exists s', f k s = NOk tt s' /\ I s') \/ f k s = NUB UBIndet) ->
  (exists s', forN n i f s = NOk tt s' /\ I s') \/ forN n i f s = NUB UBIndet.
Proof.
  induction n as [|n IH]; intros i s H0 Hs; simpl.
  - left. exists s. auto.
  - destruct (Hs i s) as [[s1 [E1 H1]]|E]; auto; [lia| |right; apply bindN_ub; auto].
    rewrite (bindN_ok _ _ _ _ _ E1). apply IH; auto. intros k s' Hk Hi. apply Hs; auto. lia.
Qed.

Lemma h_each_safe (I : mstate -> Prop) (s : mstate) o (f : nat -> nat -> N unit) :
  memory_sound s -> exists_m s o -> I s ->
  (forall i j sk, i < drows (m_dim s o) -> j < dcols (m_dim s o) -> I sk ->
     (exists s', f i j sk = NOk tt s' /\ I s') \/ f i j sk = NUB UBIndet) ->
  (exists s', h_each o f s = NOk tt s' /\ I s') \/ h_each o f s = NUB UBIndet.
Proof.
  intros Hs He HI Hf. unfold h_each. rewrite (bindN_ok _ _ s _ s) by (apply get_dim_ok; auto).
  destruct (dlay (m_dim s o)); apply (forN_safe I); auto;
    intros a sa Ha Sa; apply (forN_safe I); auto; intros b sb Hb Sb; apply Hf; auto; lia.
Qed.

(** ** Expressions *)
Fixpoint hdim (s : mstate) (e : hexpr) : nat * nat :=
  match e with
  | HObj o => (drows (m_dim s o), dcols (m_dim s o))
  | HTmp r c _ => (r, c)
  | HUn _ e1 | HBin _ e1 _ | HScal _ e1 _ => hdim s e1
  | HTrans e1 => (snd (hdim s e1), fst (hdim s e1))
  end.
Definition operands (s : mstate) (e : hexpr) : Prop := forall o, In o (h_objs e) -> exists_m s o.
Fixpoint fitting (s : mstate) (e : hexpr) : Prop :=
  match e with
  | HObj _ | HTmp _ _ _ => True
  | HUn _ e1 | HScal _ e1 _ | HTrans e1 => fitting s e1
  | HBin _ e1 e2 => fitting s e1 /\ fitting s e2 /\ hdim s e1 = hdim s e2
  end.

Lemma h_dims_ok (s : mstate) e : memory_sound s -> operands s e -> h_dims e s = NOk (hdim s e) s.
Proof.
  intros Hs. induction e; simpl; intros Ho; auto.
  - rewrite (bindN_ok _ _ s _ s) by (apply get_dim_ok; [auto|apply Ho; simpl; auto]). reflexivity.
  - apply IHe1. intros o Hin. apply Ho. simpl. apply in_or_app; auto.
  - rewrite (bindN_ok _ _ _ _ _ (IHe Ho)). reflexivity.
Qed.

Lemma h_build_ok (s : mstate) e : memory_sound s -> operands s e ->
  (fitting s e /\ h_build e s = NOk tt s) \/
  (~ fitting s e /\ h_build e s = NThrow EIncompatibleMatrixSize s).
Proof.
  intros Hs. induction e; simpl; intros Ho; auto.
  - left. split; auto. rewrite (bindN_ok _ _ s _ s) by (apply get_dim_ok; [auto|apply Ho; simpl; auto]).
    reflexivity.
  - assert (H1 : operands s e1) by (intros o Hin; apply Ho; simpl; apply in_or_app; auto).
    assert (H2 : operands s e2) by (intros o Hin; apply Ho; simpl; apply in_or_app; auto).
    destruct (IHe1 H1) as [[F1 E1]|[F1 E1]]; [|right; split; [tauto|apply bindN_throw; auto]].
    rewrite (bindN_ok _ _ _ _ _ E1).
    destruct (IHe2 H2) as [[F2 E2]|[F2 E2]]; [|right; split; [tauto|apply bindN_throw; auto]].
    rewrite (bindN_ok _ _ _ _ _ E2), (bindN_ok _ _ _ _ _ (h_dims_ok s e1 Hs H1)),
      (bindN_ok _ _ _ _ _ (h_dims_ok s e2 Hs H2)). unfold requireN.
    destruct (hdim s e1) as [r1 c1], (hdim s e2) as [r2 c2]. simpl.
    destruct (Nat.eqb_spec r1 r2), (Nat.eqb_spec c1 c2); simpl; subst; auto; right; split; auto;
      intros [_ [_ E]]; congruence.
Qed.

Lemma hdim_steady (s s' : mstate) e : (forall o, In o (h_objs e) -> m_dim s' o = m_dim s o) ->
  hdim s' e = hdim s e.
Proof.
  induction e; simpl; intros H; auto.
  - now rewrite H by auto.
  - apply IHe1. intros; apply H, in_or_app; auto.
  - now rewrite IHe.
Qed.
Lemma fitting_steady (s s' : mstate) e : (forall o, In o (h_objs e) -> m_dim s' o = m_dim s o) ->
  fitting s e -> fitting s' e.
Proof.
  induction e; simpl; intros H; auto. intros [F1 [F2 E]].
  assert (H1 : forall o, In o (h_objs e1) -> m_dim s' o = m_dim s o) by (intros; apply H, in_or_app; auto).
  assert (H2 : forall o, In o (h_objs e2) -> m_dim s' o = m_dim s o) by (intros; apply H, in_or_app; auto).
  rewrite (hdim_steady s s' e1), (hdim_steady s s' e2) by auto. auto.
Qed.

Lemma h_read_safe (s : mstate) e : memory_sound s -> operands s e -> fitting s e ->
  forall i j, i < fst (hdim s e) -> j < snd (hdim s e) ->
  (exists x, h_read e i j s = NOk x s) \/ h_read e i j s = NUB UBIndet.
Proof.
  intros Hs. induction e; cbn [h_read hdim fitting]; intros Ho F i j Hi Hj.
  - assert (H := h_get_ok s o i j Hs). simpl in *. destruct (element s o i j); [left; eexists|right]; apply H;
      split; auto; apply Ho; simpl; auto.
  - left. simpl in *. exists (f i j). destruct (Nat.ltb_spec i r), (Nat.ltb_spec j c); try lia. reflexivity.
  - destruct (IHe Ho F i j Hi Hj) as [[x E]|E]; [|right; apply bindN_ub; auto].
    rewrite (bindN_ok _ _ _ _ _ E). left; eexists; reflexivity.
  - destruct F as [F1 [F2 E]].
    assert (H1 : operands s e1) by (intros o Hin; apply Ho; simpl; apply in_or_app; auto).
    assert (H2 : operands s e2) by (intros o Hin; apply Ho; simpl; apply in_or_app; auto).
    destruct (IHe1 H1 F1 i j Hi Hj) as [[x E1]|E1]; [|right; apply bindN_ub; auto].
    rewrite (bindN_ok _ _ _ _ _ E1). rewrite E in Hi, Hj.
    destruct (IHe2 H2 F2 i j Hi Hj) as [[y E2]|E2]; [|right; apply bindN_ub; auto].
    rewrite (bindN_ok _ _ _ _ _ E2). left; eexists; reflexivity.
  - destruct (IHe Ho F i j Hi Hj) as [[x E]|E]; [|right; apply bindN_ub; auto].
    rewrite (bindN_ok _ _ _ _ _ E). left; eexists; reflexivity.
  - apply IHe; auto.
Qed.

(** the size of an operand outside transpose() is the size of the expression *)
Lemma leaf_dim (s : mstate) o e : fitting s e -> In o (h_objs e) -> ~ under_transpose o e ->
  hdim s e = (drows (m_dim s o), dcols (m_dim s o)).
Proof.
  induction e; simpl; intros F Hin Hu; auto.
  - destruct Hin as [->|[]]. reflexivity.
  - destruct Hin.
  - destruct F as [F1 [F2 E]]. apply in_app_or in Hin as [Hin|Hin]; [apply IHe1; tauto|].
    rewrite E. apply IHe2; tauto.
  - tauto.
Qed.

End MHeapFacts.
