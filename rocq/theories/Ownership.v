(** Memory safety and absence of leaks for all histories of API calls on
    dynamically allocated vectors. *)
From Coq Require Import List ZArith Bool Arith Lia.
From Verif Require Import Base BaseFacts HeapModel HeapSpec HeapFacts HeapProofs HeapAssign HeapParts.
Import ListNotations.

Section Ownership.
Context {T : Type}.
Notation state := (state T).
Notation vexpr := (vexpr T).
Notation sref := (sref T).
Notation M := (M T).
Notation op := (op T).

(** Outcome of an operation on a sound state. *)
Definition good (s : state) (r : res T unit) : Prop :=
  match r with
  | ROk _ s' => sound s' /\ length (objs s') = length (objs s)
  | RThrow _ s' => blocks s' = blocks s /\ objs s' = objs s
  | RUB u => u = UBIndet
  end.

Lemma sound_shape (s s' : state) : same_shape s s' -> sound s -> sound s'.
Proof.
  intros [Ho [_ [_ Hb]]] [A [B C]]. split; [|split].
  - intros o v Hv. rewrite Ho in Hv. destruct (A o v Hv) as [v' [A1 [A2 A3]]].
    exists v'. rewrite Ho. split; auto. split; auto. destruct (oaddr v') as [[b off]|]; auto.
    destruct A3 as [-> [cs [A3 A4]]]. split; auto. specialize (Hb b). unfold bsize in Hb.
    rewrite A3 in Hb. destruct (get_block s' b); [|discriminate]. injection Hb as Hb. exists l. split; auto. congruence.
  - intros o1 o2 v1 v2 b f1 f2. rewrite Ho. eauto.
  - intros b cs Hg. specialize (Hb b). unfold bsize in Hb. rewrite Hg in Hb.
    destruct (get_block s b) eqn:E; [|discriminate]. rewrite Ho. eauto.
Qed.

Lemma sound_obj_ok (s : state) o v : sound s -> nth_error (objs s) o = Some (Some v) -> obj_ok s o.
Proof.
  intros [A _] Hv. destruct (A o v Hv) as [v' [A1 [A2 A3]]]. exists v'. split; auto.
  destruct (oaddr v') as [[b off]|]; auto. destruct A3 as [-> [cs [A3 A4]]].
  exists (length cs). unfold bsize. rewrite A3. split; auto. lia.
Qed.

Lemma good_refl (s : state) : sound s -> good s (ROk tt s).
Proof. intros H; split; auto. Qed.

Lemma good_bind (s : state) (m k : M unit) :
  good s (m s) -> (forall s', sound s' -> length (objs s') = length (objs s) ->
    m s = ROk tt s' -> match k s' with
                     | ROk _ s'' => sound s'' /\ length (objs s'') = length (objs s')
                     | RThrow _ _ => False
                     | RUB u => u = UBIndet end) ->
  good s (bindM m (fun _ => k) s).
Proof.
  intros H Hk. unfold bindM. destruct (m s) as [[] s'|e s'|u] eqn:E; auto.
  destruct H as [H1 H2]. specialize (Hk s' H1 H2 eq_refl).
  destruct (k s'); simpl; auto; [|contradiction]. destruct Hk; split; auto. congruence.
Qed.

(** ** Object table changes *)
Lemma sound_resized (s s' : state) o v n k : sound s -> nth_error (objs s) o = Some (Some v) ->
  resized s s' o v n k -> sound s'.
Proof.
  intros [A [B C]] Hv R. destruct (A o v Hv) as [v0 [A1 [A2 A3]]].
  rewrite Hv in A1. injection A1 as <-.
  set (nb := length (blocks s)) in *.
  assert (Hother : forall o' v' b off, o' <> o -> nth_error (objs s) o' = Some (Some v') ->
            oaddr v' = Some (b, off) -> b <> nb /\ (forall f, oaddr v <> Some (b, f)) /\
            get_block s' b = get_block s b).
  { intros o' v' b off Ho' Hv' Ha'.
    destruct (A o' v' Hv') as [v2 [B1 [B2 B3]]]. rewrite Hv' in B1. injection B1 as <-.
    rewrite Ha' in B3. destruct B3 as [-> [cs [B3 B4]]].
    assert (b < nb) by (eapply get_block_bound; eauto).
    assert (forall f, oaddr v <> Some (b, f)).
    { intros f Hf. apply Ho'. eapply B; eauto. }
    split; [lia|]. split; auto. apply (rs_other _ _ _ _ _ _ R); auto. fold nb; lia. }
  assert (Ho : forall o', nth_error (objs s') o' =
     if Nat.eq_dec o' o then Some (Some (VObj (okind v) (Some (nb, 0)) n)) else nth_error (objs s) o')
    by apply (rs_objs _ _ _ _ _ _ R).
  split; [|split].
  - intros o' v' Hv'. rewrite Ho in Hv'. destruct (Nat.eq_dec o' o) as [->|Hne].
    + exists (VObj (okind v) (Some (nb, 0)) n). rewrite Ho. destruct (Nat.eq_dec o o); [|congruence].
      split; auto. split; auto. simpl. split; auto.
      assert (Hnew := rs_new _ _ _ _ _ _ R). fold nb in Hnew. unfold bsize in Hnew.
      destruct (get_block s' nb); [|discriminate]. injection Hnew as Hnew. eauto.
    + destruct (A o' v' Hv') as [v2 [B1 [B2 B3]]]. exists v2. rewrite Ho.
      destruct (Nat.eq_dec o' o); [congruence|]. split; auto. split; auto.
      destruct (oaddr v2) as [[b off]|] eqn:Ea; auto.
      destruct (Hother o' v2 b off Hne B1 Ea) as [_ [_ ->]]. auto.
  - intros o1 o2 v1 v2 b f1 f2. rewrite !Ho.
    destruct (Nat.eq_dec o1 o) as [->|N1], (Nat.eq_dec o2 o) as [->|N2]; auto.
    + intros E1 Hv2 Ha1 Ha2. injection E1 as <-. simpl in Ha1. injection Ha1 as <- <-.
      destruct (Hother o2 v2 nb f2 N2 Hv2 Ha2). congruence.
    + intros Hv1 E2 Ha1 Ha2. injection E2 as <-. simpl in Ha2. injection Ha2 as <- <-.
      destruct (Hother o1 v1 nb f1 N1 Hv1 Ha1). congruence.
    + eauto.
  - intros b cs Hg. destruct (Nat.eq_dec b nb) as [->|Hb].
    + exists o. eexists. exists 0. rewrite Ho. destruct (Nat.eq_dec o o); [|congruence]. split; eauto.
    + destruct (oaddr v) as [[b0 f0]|] eqn:Ea.
      * destruct (Nat.eq_dec b b0) as [->|Hb0].
        { rewrite (rs_old _ _ _ _ _ _ R b0 f0 Ea) in Hg. discriminate. }
        rewrite (rs_other _ _ _ _ _ _ R b) in Hg; [|auto|intros f; rewrite Ea; congruence].
        destruct (C b cs Hg) as [o' [v' [off [D1 D2]]]]. exists o', v', off.
        rewrite Ho. destruct (Nat.eq_dec o' o) as [->|]; auto.
        rewrite Hv in D1. injection D1 as <-. rewrite Ea in D2. congruence.
      * rewrite (rs_other _ _ _ _ _ _ R b) in Hg; [|auto|intros f; rewrite Ea; congruence].
        destruct (C b cs Hg) as [o' [v' [off [D1 D2]]]]. exists o', v', off.
        rewrite Ho. destruct (Nat.eq_dec o' o) as [->|]; auto.
        rewrite Hv in D1. injection D1 as <-. congruence.
Qed.

Lemma resize_good (s : state) o n v : sound s -> nth_error (objs s) o = Some (Some v) ->
  good s (resize true o n s) /\
  (forall s', resize true o n s = ROk tt s' -> (0 <= n)%Z /\ s' = s /\ n = Z.of_nat (olen v) \/
     exists m, n = Z.of_nat m /\ m <> olen v /\ resized s s' o v m (Nat.min (olen v) m)).
Proof.
  intros Hs Hv. destruct (Z.ltb_spec n 0).
  { rewrite resize_neg by auto. split; [simpl; auto|]. intros s' E; discriminate. }
  assert (Hn : n = Z.of_nat (Z.to_nat n)) by lia. set (m := Z.to_nat n) in *. rewrite Hn.
  destruct (Nat.eq_dec m (olen v)) as [Em|Em].
  { rewrite Em, (resize_same s o v) by auto. split; [apply good_refl; auto|].
    intros s' E. injection E as <-. left. split; [lia|auto]. }
  destruct (resize_spec s o v m Hv) as [[r [_ ->]]|[_ [s' [-> R]]]]; auto.
  - eapply owned_of_owns; eauto. apply Hs in Hv. auto.
  - split; [simpl; auto|]. intros s' E; discriminate.
  - split.
    + split; [eapply sound_resized; eauto|apply (rs_len _ _ _ _ _ _ R)].
    + intros s'' E. injection E as <-. right. eauto.
Qed.

Lemma resize_fast_spec (s : state) o m v : sound s -> nth_error (objs s) o = Some (Some v) ->
  m <> olen v ->
  (exists r, sched s = false :: r /\
     resize_fast true o (Z.of_nat m) s = RThrow EBadAlloc (St (blocks s) (objs s) r)) \/
  (hd true (sched s) = true /\ exists s', resize_fast true o (Z.of_nat m) s = ROk tt s' /\
     resized s s' o v m 0).
Proof.
  intros Hs Hv Hm. unfold resize_fast.
  rewrite (bindM_ok _ _ _ tt s) by (apply requireM_true; apply Z.leb_le; lia).
  rewrite (bindM_ok _ _ _ v s) by (apply get_obj_ok; auto).
  destruct (Z.eqb_spec (Z.of_nat m) (Z.of_nat (olen v))); [lia|].
  rewrite Nat2Z.id.
  destruct (alloc_spec s m) as [[r [Hr E1]]|[s1 [Hh [E1 [Ho1 [Hs1 Hb1]]]]]].
  { left. exists r; split; auto. now rewrite (bindM_throw _ _ _ _ _ E1). }
  right. split; auto.
  rewrite (bindM_ok _ _ _ _ _ E1). rewrite (bindM_ok _ _ _ tt s1) by reflexivity.
  set (nb := length (blocks s)) in *.
  assert (Hg1 : forall b, get_block s1 b =
            if Nat.eq_dec b nb then Some (repeat None m) else get_block s b).
  { intros b. rewrite (get_block_app _ _ _ b Hb1). reflexivity. }
  assert (Hlo : o < length (objs s)) by (apply nth_error_Some; congruence).
  assert (Hown := owned_of_owns _ _ _ (proj1 Hs o v Hv) Hv). unfold owned in Hown.
  (* the state after deallocate *)
  assert (HD : exists s2, dealloc (oaddr v) (olen v) s1 = ROk tt s2 /\ objs s2 = objs s /\ sched s2 = sched s1 /\
     length (blocks s2) = S nb /\
     (forall b, get_block s2 b = if Nat.eq_dec b nb then Some (repeat None m) else
        match oaddr v with
        | Some (b0, _) => if Nat.eq_dec b b0 then None else get_block s b
        | None => get_block s b end)).
  { destruct (oaddr v) as [[b0 off]|] eqn:Ea.
    - destruct Hown as [-> Hsz]. unfold bsize in Hsz.
      destruct (get_block s b0) as [cs|] eqn:Eb; [|discriminate]. injection Hsz as Hsz.
      assert (Hlt := get_block_bound _ _ _ Eb). fold nb in Hlt.
      assert (Hg0 : get_block s1 b0 = Some cs).
      { rewrite Hg1. destruct (Nat.eq_dec b0 nb); [lia|auto]. }
      destruct (set_block_ok s1 b0 Freed (get_block_bound _ _ _ Hg0)) as [s2 [Es [Ho2 [Hs2 [Hl2 Hg2]]]]].
      exists s2. unfold dealloc. rewrite Hg0, Hsz, !Nat.eqb_refl. cbn [andb Nat.eqb]. rewrite Es.
      split; auto. split; [congruence|]. split; auto. split.
      + rewrite Hl2, Hb1, app_length. simpl. fold nb. lia.
      + intros b. rewrite Hg2, Hg1.
        destruct (Nat.eq_dec b b0), (Nat.eq_dec b nb); subst; auto; lia.
    - exists s1. split; auto. split; auto. split; auto. split; [rewrite Hb1, app_length; simpl; fold nb; lia|].
      intros b. apply Hg1. }
  destruct HD as [s2 [E2 [Ho2 [Hsc2 [Hl2 Hg2]]]]]. rewrite (bindM_ok _ _ _ _ _ E2).
  destruct (set_obj_ok s2 o (Some (VObj (okind v) (Some (nb, 0)) m))) as [s4 [E4 [Hb4 [Hs4 [Hl4 Ho4]]]]].
  { rewrite Ho2. auto. }
  exists s4. split; [exact E4|]. split.
  - intros o'. rewrite Ho4, Ho2. reflexivity.
  - congruence.
  - rewrite Hs4, Hsc2, Hs1. auto.
  - rewrite Hb4. auto.
  - unfold bsize. fold nb. rewrite (blocks_get_block _ _ _ Hb4), Hg2.
    destruct (Nat.eq_dec nb nb); [|congruence]. simpl. now rewrite repeat_length.
  - lia.
  - intros i Hi. fold nb. unfold cellat. rewrite (blocks_get_block _ _ _ Hb4), Hg2.
    destruct (Nat.eq_dec nb nb); [|congruence]. apply nth_error_repeat. lia.
  - intros b off Ea. rewrite (blocks_get_block _ _ _ Hb4), Hg2, Ea. rewrite Ea in Hown.
    destruct Hown as [_ Hsz]. unfold bsize in Hsz.
    destruct (get_block s b) as [cs|] eqn:Eb; [|discriminate].
    assert (Hlt := get_block_bound _ _ _ Eb). fold nb in Hlt.
    destruct (Nat.eq_dec b nb); [lia|]. destruct (Nat.eq_dec b b); congruence.
  - intros b Hb Hno. fold nb in Hb. rewrite (blocks_get_block _ _ _ Hb4), Hg2.
    destruct (Nat.eq_dec b nb); [lia|]. destruct (oaddr v) as [[b0 off]|]; auto.
    destruct (Nat.eq_dec b b0) as [->|]; auto. exfalso. eapply Hno; eauto.
Qed.

Lemma resize_fast_good (s : state) o n v : sound s -> nth_error (objs s) o = Some (Some v) ->
  good s (resize_fast true o n s).
Proof.
  intros Hs Hv. destruct (Z.ltb_spec n 0).
  { unfold resize_fast. rewrite (bindM_throw _ _ s EInvalidArgument s); [simpl; auto|]. unfold requireM.
    destruct (Z.leb_spec 0 n); [lia|reflexivity]. }
  assert (Hn : n = Z.of_nat (Z.to_nat n)) by lia. set (m := Z.to_nat n) in *. rewrite Hn.
  destruct (Nat.eq_dec m (olen v)) as [->|Em].
  { unfold resize_fast.
    rewrite (bindM_ok _ _ _ tt s) by (apply requireM_true; apply Z.leb_le; lia).
    rewrite (bindM_ok _ _ _ v s) by (apply get_obj_ok; auto). rewrite Z.eqb_refl. apply good_refl; auto. }
  destruct (resize_fast_spec s o m v Hs Hv Em) as [[r [_ ->]]|[_ [s' [-> R]]]]; [simpl; auto|].
  split; [eapply sound_resized; eauto|apply (rs_len _ _ _ _ _ _ R)].
Qed.

(** ** Sizes and aliasing: a target not under subvector has the size of e *)
Lemma leaf_size (s : state) e o v : built s e -> In o (e_objs e) -> ~ under_sub o e ->
  nth_error (objs s) o = Some (Some v) -> esz s e = Z.of_nat (olen v).
Proof.
  induction e; simpl; intros [Ha Hw] Hin Hu Hv; simpl in *; try contradiction.
  - destruct Hin as [->|[]]. now rewrite (size_of_eq _ _ _ Hv).
  - apply IHe; auto. split; auto.
  - destruct Ha as [A1 A2], Hw as [W1 [W2 W3]]. apply in_app_or in Hin as [Hin|Hin].
    + apply IHe1; auto. split; auto.
    + rewrite W3. apply IHe2; auto. split; auto.
  - apply IHe; auto. split; auto.
  - destruct Ha as [A1 A2], Hw as [W1 [W2 [W3 W4]]]. apply in_app_or in Hin as [Hin|Hin].
    + rewrite <- W3. apply IHe1; auto. split; auto.
    + rewrite <- W4. apply IHe2; auto. split; auto.
Qed.

(** Expressions stay readable when another vector is resized. *)
Lemma esz_ext (s s' : state) e :
  (forall o, In o (e_objs e) -> nth_error (objs s') o = nth_error (objs s) o) ->
  esz s' e = esz s e.
Proof.
  induction e; simpl; intros H; auto.
  - unfold size_of. now rewrite H by auto.
  - apply IHe1. intros; apply H, in_or_app; auto.
  - now rewrite IHe.
Qed.

Lemma built_ext (s s' : state) e :
  (forall o, In o (e_objs e) -> nth_error (objs s') o = nth_error (objs s) o) ->
  built s e -> built s' e.
Proof.
  intros H [Ha Hw]. split.
  - apply all_alive_iff. intros o Hin. rewrite H by auto. revert o Hin. now apply all_alive_iff.
  - revert Ha Hw H. induction e; simpl; intros Ha Hw H; auto.
    + destruct Ha, Hw as [W1 [W2 W3]].
      rewrite (esz_ext s s' e1), (esz_ext s s' e2) by (intros; apply H, in_or_app; auto).
      split; [|split]; auto; [apply IHe1|apply IHe2]; auto; intros; apply H, in_or_app; auto.
    + destruct Ha, Hw as [W1 [W2 [W3 W4]]].
      rewrite (esz_ext s s' e1), (esz_ext s s' e2) by (intros; apply H, in_or_app; auto).
      split; [|split]; auto; [apply IHe1|apply IHe2]; auto; intros; apply H, in_or_app; auto.
Qed.

Lemma sound_fits (s : state) e i : sound s -> built s e -> (Z.of_nat i < esz s e)%Z -> fits s e i.
Proof.
  intros Hs Hb Hi. apply fits_of_size; auto. intros o Hin.
  destruct Hb as [Ha _]. destruct (proj1 (all_alive_iff s e) Ha o Hin) as [v Hv].
  eapply sound_obj_ok; eauto.
Qed.

(** Store loops: each iteration reads elements that exist and writes one. *)
Lemma store_good (s : state) o v n (body : nat -> M T) :
  sound s -> nth_error (objs s) o = Some (Some v) -> n <= olen v ->
  (forall k sk, k < n -> same_shape s sk ->
     (exists x, body k sk = ROk x sk) \/ body k sk = RUB UBIndet) ->
  (exists s', forM n 0 (fun i => bindM (body i) (fun x => obj_put o i x)) s = ROk tt s' /\ same_shape s s')
  \/ forM n 0 (fun i => bindM (body i) (fun x => obj_put o i x)) s = RUB UBIndet.
Proof.
  intros Hs Hv Hn Hb. apply (forM_safe (fun sk => same_shape s sk)).
  - apply same_shape_refl.
  - intros k sk Hk Sh. simpl in Hk. destruct (Hb k sk ltac:(lia) Sh) as [[x Hx]|Hx].
    + rewrite (bindM_ok _ _ _ _ _ Hx). left.
      destruct (obj_ok_cell s o v k) as [b [off [c [E1 E2]]]]; auto;
        [eapply sound_obj_ok; eauto|lia|].
      destruct (same_shape_cellat s sk b (off + k) Sh) as [c' Hc']; [eauto|].
      destruct (obj_put_ok sk o v b off k x c') as [s' [E [Sh' _]]]; auto.
      { rewrite (same_shape_obj _ _ _ Sh); auto. }
      exists s'. split; auto. eapply same_shape_trans; eauto.
    + right. now apply bindM_ub.
Qed.

Lemma good_of_shape (s s' : state) : sound s -> same_shape s s' -> good s (ROk tt s').
Proof.
  intros H Sh. split; [eapply sound_shape; eauto|]. destruct Sh as [-> _]. auto.
Qed.

Lemma check_or_resize_good (s : state) o n ex v : sound s -> nth_error (objs s) o = Some (Some v) ->
  good s (check_or_resize true o n ex s) /\
  (forall s', check_or_resize true o n ex s = ROk tt s' ->
     (0 <= n)%Z /\ s' = s /\ n = Z.of_nat (olen v) \/
     exists m, n = Z.of_nat m /\ m <> olen v /\ resized s s' o v m (Nat.min (olen v) m)).
Proof.
  intros Hs Hv. unfold check_or_resize.
  rewrite (bindM_ok _ _ _ v s) by (apply get_obj_ok; auto).
  assert (Hk : okind v = KAllocated).
  { destruct (proj1 Hs o v Hv) as [v' [A [B _]]]. rewrite Hv in A. injection A as <-. auto. }
  rewrite Hk. simpl. apply resize_good; auto.
Qed.

(** After check_or_resize, e can still be read at every index below its size. *)
Lemma after_check (s s1 : state) o e v :
  sound s -> sound s1 -> built s e -> nth_error (objs s) o = Some (Some v) ->
  (In o (e_objs e) -> esz s e = Z.of_nat (olen v)) ->
  ((0 <= esz s e)%Z /\ s1 = s /\ esz s e = Z.of_nat (olen v) \/
     exists m, esz s e = Z.of_nat m /\ m <> olen v /\ resized s s1 o v m (Nat.min (olen v) m)) ->
  built s1 e /\ esz s1 e = esz s e /\
  exists v1, nth_error (objs s1) o = Some (Some v1) /\ Z.of_nat (olen v1) = esz s e.
Proof.
  intros Hs Hs1 Hb Hv Hal [[_ [-> Hz]]|[m [Hz [Hm R]]]].
  - split; auto. split; auto. exists v. auto.
  - assert (Hext : forall o', In o' (e_objs e) -> nth_error (objs s1) o' = nth_error (objs s) o').
    { intros o' Hin. rewrite (rs_objs _ _ _ _ _ _ R). destruct (Nat.eq_dec o' o) as [->|]; auto.
      specialize (Hal Hin). lia. }
    split; [eapply built_ext; eauto|]. split; [apply esz_ext; auto|].
    assert (Ho' := rs_objs _ _ _ _ _ _ R o). destruct (Nat.eq_dec o o); [|congruence].
    eexists. split; [exact Ho'|]. simpl. auto.
Qed.

Lemma good_shape_after (s s1 : state) (r : res T unit) :
  sound s1 -> length (objs s1) = length (objs s) ->
  (exists s', r = ROk tt s' /\ same_shape s1 s') \/ r = RUB UBIndet -> good s r.
Proof.
  intros H1 Hl [[s' [-> Sh]]| ->]; [|reflexivity].
  split; [eapply sound_shape; eauto|]. destruct Sh as [-> _]. auto.
Qed.

(** Common shape of assign and compound. *)
Lemma checked_store_good (s : state) o v e (body : nat -> M T) ex :
  sound s -> all_alive s e -> nth_error (objs s) o = Some (Some v) -> ~ under_sub o e ->
  (forall s1 v1, sound s1 -> built s1 e -> nth_error (objs s1) o = Some (Some v1) ->
     Z.of_nat (olen v1) = esz s1 e -> forall k, k < olen v1 -> forall sk, same_shape s1 sk ->
     (exists x, body k sk = ROk x sk) \/ body k sk = RUB UBIndet) ->
  good s (bindM (e_build e) (fun _ => bindM (e_size e) (fun n =>
    bindM (check_or_resize true o n ex) (fun _ => bindM (get_obj o) (fun v =>
    forM (olen v) 0 (fun i => bindM (body i) (fun x => obj_put o i x)))))) s).
Proof.
  intros Hs Ha Hv Hu Hbody.
  destruct (e_build_spec s e Ha) as [[Hw Hb]|[_ [Hb|Hb]]];
    [|rewrite (bindM_throw _ _ _ _ _ Hb); simpl; auto..].
  rewrite (bindM_ok _ _ _ _ _ Hb), (bindM_ok _ _ _ _ _ (e_size_ok _ _ Ha)).
  destruct (check_or_resize_good s o (esz s e) ex v Hs Hv) as [G1 G2].
  destruct (check_or_resize true o (esz s e) ex s) as [[] s1|ex' s1|u] eqn:E1;
    [|rewrite (bindM_throw _ _ _ _ _ E1); exact G1|rewrite (bindM_ub _ _ _ _ E1); exact G1].
  rewrite (bindM_ok _ _ _ _ _ E1). destruct G1 as [Hs1 Hl1].
  destruct (after_check s s1 o e v) as [Hb1 [Hz1 [v1 [Hv1 Hlv1]]]]; auto.
  { split; auto. }
  { intros Hin. eapply leaf_size; eauto. split; auto. }
  rewrite (bindM_ok _ _ _ v1 s1) by (apply get_obj_ok; auto).
  eapply good_shape_after; eauto. apply (store_good s1 o v1 (olen v1) body); auto.
  intros k sk Hk Sh. eapply (Hbody s1 v1); eauto. congruence.
Qed.

Lemma e_get_shape_safe (s1 sk : state) e k : sound s1 -> built s1 e -> same_shape s1 sk ->
  (Z.of_nat k < esz s1 e)%Z -> (exists x, e_get e k sk = ROk x sk) \/ e_get e k sk = RUB UBIndet.
Proof.
  intros Hs1 Hb1 Sh Hk. apply e_get_safe. eapply fits_shape; eauto. apply sound_fits; auto.
Qed.

Lemma assign_good (s : state) o v e : sound s -> all_alive s e ->
  nth_error (objs s) o = Some (Some v) -> ~ under_sub o e -> good s (assign true o e s).
Proof.
  intros Hs Ha Hv Hu. unfold assign.
  eapply (checked_store_good s o v e (fun i => e_get e i)); eauto.
  intros s1 v1 Hs1 Hb1 Hv1 Hz k Hk sk Sh. eapply e_get_shape_safe; eauto. lia.
Qed.

Lemma obj_get_safe (s1 sk : state) o v k : sound s1 -> same_shape s1 sk ->
  nth_error (objs s1) o = Some (Some v) -> k < olen v ->
  (exists x, obj_get o k sk = ROk x sk) \/ obj_get o k sk = RUB UBIndet.
Proof.
  intros Hs Sh Hv Hk. apply (e_get_safe (EObj o)). eapply fits_shape; eauto.
  apply (sound_fits s1 (EObj o)); auto.
  - split; simpl; eauto.
  - simpl. rewrite (size_of_eq _ _ _ Hv). lia.
Qed.

Lemma bindM_ext {A B} (m : M A) (f g : A -> M B) s :
  (forall a s', f a s' = g a s') -> bindM m f s = bindM m g s.
Proof. intros H. unfold bindM. destruct (m s); auto. Qed.

Lemma compound_good (s : state) f o v e : sound s -> all_alive s e ->
  nth_error (objs s) o = Some (Some v) -> ~ under_sub o e -> good s (compound true f o e s).
Proof.
  intros Hs Ha Hv Hu.
  assert (G : good s (bindM (e_build e) (fun _ => bindM (e_size e) (fun n =>
    bindM (check_or_resize true o n EIncompatibleVectorSize) (fun _ => bindM (get_obj o) (fun v =>
    forM (olen v) 0 (fun i => bindM (e_get (EBin f (EObj o) e) i) (fun x => obj_put o i x)))))) s)).
  { eapply (checked_store_good s o v e (fun i => e_get (EBin f (EObj o) e) i)); eauto.
    intros s1 v1 Hs1 Hb1 Hv1 Hz k Hk sk Sh. cbn [e_get].
    destruct (obj_get_safe s1 sk o v1 k Hs1 Sh Hv1 Hk) as [[x Hx]|Hx].
    - rewrite (bindM_ok _ _ _ _ _ Hx).
      destruct (e_get_shape_safe s1 sk e k Hs1 Hb1 Sh ltac:(lia)) as [[y Hy]|Hy].
      + rewrite (bindM_ok _ _ _ _ _ Hy). left. eexists; reflexivity.
      + right. now apply bindM_ub.
    - right. now apply bindM_ub. }
  unfold good in G |- *.
  replace (compound true f o e s) with
   ((bindM (e_build e) (fun _ => bindM (e_size e) (fun n =>
    bindM (check_or_resize true o n EIncompatibleVectorSize) (fun _ => bindM (get_obj o) (fun v =>
    forM (olen v) 0 (fun i => bindM (e_get (EBin f (EObj o) e) i) (fun x => obj_put o i x)))))) s)); auto.
  unfold compound. apply bindM_ext; intros _ sa. apply bindM_ext; intros n sb.
  apply bindM_ext; intros _ sc. apply bindM_ext; intros vd sd.
  apply forM_ext. intros. symmetry. apply body_as_bin.
Qed.

Lemma pairwise_good (s : state) f o v e : sound s -> all_alive s e ->
  nth_error (objs s) o = Some (Some v) -> good s (pairwise f o e s).
Proof.
  intros Hs Ha Hv. unfold pairwise.
  destruct (e_build_spec s e Ha) as [[Hw Hb]|[_ [Hb|Hb]]];
    [|rewrite (bindM_throw _ _ _ _ _ Hb); simpl; auto..].
  rewrite (bindM_ok _ _ _ _ _ Hb).
  rewrite (bindM_ok _ _ _ v s) by (apply get_obj_ok; auto).
  rewrite (bindM_ok _ _ _ _ _ (e_size_ok _ _ Ha)).
  destruct (Z.eqb_spec (Z.of_nat (olen v)) (esz s e)) as [Hz|Hz].
  - rewrite (bindM_ok _ _ s tt s) by reflexivity.
    eapply (good_shape_after s s); auto.
    rewrite (forM_ext _ (fun i => bindM (e_get (EBin f (EObj o) e) i) (fun x => obj_put o i x)))
      by (intros; apply body_as_bin).
    apply (store_good s o v (olen v) (fun i => e_get (EBin f (EObj o) e) i)); auto.
    intros k sk Hk Sh. cbn [e_get].
    destruct (obj_get_safe s sk o v k Hs Sh Hv Hk) as [[x Hx]|Hx].
    + rewrite (bindM_ok _ _ _ _ _ Hx).
      destruct (e_get_shape_safe s sk e k Hs (conj Ha Hw) Sh ltac:(lia)) as [[y Hy]|Hy].
      * rewrite (bindM_ok _ _ _ _ _ Hy). left. eexists; reflexivity.
      * right. now apply bindM_ub.
    + right. now apply bindM_ub.
  - rewrite (bindM_throw _ _ s EIncompatibleVectorSize s) by reflexivity. simpl; auto.
Qed.

(** A reference to an existing cell. *)
Definition ref_ok (s : state) (r : sref) : Prop :=
  match r with SVal _ => True | SCell b i => exists c, cellat s b i = Some c end.

Lemma sread_safe (s sk : state) r : ref_ok s r -> same_shape s sk ->
  (exists x, sread r sk = ROk x sk) \/ sread r sk = RUB UBIndet.
Proof.
  destruct r as [x|b i]; simpl; intros H Sh; [left; eexists; reflexivity|].
  destruct (same_shape_cellat s sk b i Sh H) as [c Hc]. unfold rd.
  rewrite (bindM_ok _ _ _ _ _ (rd_cell_ok _ _ _ _ Hc)). destruct c; [left; eexists|right]; reflexivity.
Qed.

Lemma scale_good (s : state) f o v r : sound s -> nth_error (objs s) o = Some (Some v) ->
  ref_ok s r -> good s (scale f o r s).
Proof.
  intros Hs Hv Hr. unfold scale. rewrite (bindM_ok _ _ _ v s) by (apply get_obj_ok; auto).
  eapply (good_shape_after s s); auto.
  rewrite (forM_ext _ (fun i => bindM (bindM (obj_get o i) (fun x => bindM (sread r) (fun k => ret (f x k))))
                                   (fun x => obj_put o i x))).
  2:{ intros k s0 _. unfold bindM. destruct (obj_get o k s0); auto. destruct (sread r s1); auto. }
  apply (store_good s o v (olen v) (fun i => bindM (obj_get o i) (fun x => bindM (sread r) (fun k => ret (f x k))))); auto.
  intros k sk Hk Sh. destruct (obj_get_safe s sk o v k Hs Sh Hv Hk) as [[x Hx]|Hx].
  - rewrite (bindM_ok _ _ _ _ _ Hx). destruct (sread_safe s sk r Hr Sh) as [[y Hy]|Hy].
    + rewrite (bindM_ok _ _ _ _ _ Hy). left. eexists; reflexivity.
    + right. now apply bindM_ub.
  - right. now apply bindM_ub.
Qed.

Lemma fill_good (s : state) o v r : sound s -> nth_error (objs s) o = Some (Some v) ->
  ref_ok s r -> good s (fill o r s).
Proof.
  intros Hs Hv Hr. unfold fill. rewrite (bindM_ok _ _ _ v s) by (apply get_obj_ok; auto).
  eapply (good_shape_after s s); auto.
  apply (store_good s o v (olen v) (fun i => sread r)); auto.
  intros k sk Hk Sh. apply (sread_safe s); auto.
Qed.

Lemma put_good (s : state) o v i x : sound s -> nth_error (objs s) o = Some (Some v) ->
  i < olen v -> exists s', obj_put o i x s = ROk tt s' /\ same_shape s s'.
Proof.
  intros Hs Hv Hi. destruct (obj_ok_cell s o v i) as [b [off [c [E1 E2]]]]; auto;
    [eapply sound_obj_ok; eauto|].
  destruct (obj_put_ok s o v b off i x c) as [s' [E [Sh _]]]; eauto.
Qed.

Lemma put_elements_good (s : state) o v : sound s -> nth_error (objs s) o = Some (Some v) ->
  forall l i sk, same_shape s sk -> i + length l <= olen v ->
  exists s', put_elements o i (map SVal l) sk = ROk tt s' /\ same_shape s s'.
Proof.
  intros Hs Hv. induction l as [|x l IH]; intros i sk Sh Hl; simpl in *.
  - exists sk; auto.
  - destruct (put_good sk o v i x) as [s1 [E1 Sh1]].
    + eapply sound_shape; eauto.
    + rewrite (same_shape_obj _ _ _ Sh); auto.
    + lia.
    + rewrite (bindM_ok _ _ sk x sk) by reflexivity. rewrite (bindM_ok _ _ _ _ _ E1).
      apply IH; [eapply same_shape_trans; eauto|lia].
Qed.

Lemma assign_elements_good (s : state) o v l : sound s -> nth_error (objs s) o = Some (Some v) ->
  good s (assign_elements true o (map SVal l) s).
Proof.
  intros Hs Hv. unfold assign_elements. rewrite map_length.
  destruct (check_or_resize_good s o (Z.of_nat (length l)) EVectorSize v Hs Hv) as [G1 G2].
  destruct (check_or_resize true o (Z.of_nat (length l)) EVectorSize s) as [[] s1|ex' s1|u] eqn:E1;
    [|rewrite (bindM_throw _ _ _ _ _ E1); exact G1|rewrite (bindM_ub _ _ _ _ E1); exact G1].
  rewrite (bindM_ok _ _ _ _ _ E1). destruct G1 as [Hs1 Hl1].
  assert (Hv1 : exists v1, nth_error (objs s1) o = Some (Some v1) /\ olen v1 = length l).
  { destruct (G2 s1 eq_refl) as [[_ [-> Hz]]|[m [Hz [_ R]]]].
    - exists v. split; auto. lia.
    - assert (Ho' := rs_objs _ _ _ _ _ _ R o). destruct (Nat.eq_dec o o); [|congruence].
      eexists. split; [exact Ho'|]. simpl. lia. }
  destruct Hv1 as [v1 [Hv1 Hlv1]].
  destruct (put_elements_good s1 o v1 Hs1 Hv1 l 0 s1) as [s' [E Sh]]; [apply same_shape_refl|lia|].
  rewrite E. eapply (good_shape_after s s1); eauto.
Qed.

Lemma assign_parts_good (s : state) o v e l : sound s -> all_alive s e ->
  nth_error (objs s) o = Some (Some v) -> ~ In o (e_objs e) -> (0 <= esz s e)%Z ->
  good s (assign_parts true o e (map SVal l) s).
Proof.
  intros Hs Ha Hv Hno Hpos. unfold assign_parts.
  destruct (e_build_spec s e Ha) as [[Hw Hb]|[_ [Hb|Hb]]];
    [|rewrite (bindM_throw _ _ _ _ _ Hb); simpl; auto..].
  rewrite (bindM_ok _ _ _ _ _ Hb), (bindM_ok _ _ _ _ _ (e_size_ok _ _ Ha)). rewrite map_length.
  set (n := (esz s e + Z.of_nat (length l))%Z).
  destruct (check_or_resize_good s o n EVectorSize v Hs Hv) as [G1 G2].
  destruct (check_or_resize true o n EVectorSize s) as [[] s1|ex' s1|u] eqn:E1;
    [|rewrite (bindM_throw _ _ _ _ _ E1); exact G1|rewrite (bindM_ub _ _ _ _ E1); exact G1].
  rewrite (bindM_ok _ _ _ _ _ E1). destruct G1 as [Hs1 Hl1].
  assert (Hext : forall o', In o' (e_objs e) -> nth_error (objs s1) o' = nth_error (objs s) o').
  { intros o' Hin. destruct (G2 s1 eq_refl) as [[_ [-> _]]|[m [_ [_ R]]]]; auto.
    rewrite (rs_objs _ _ _ _ _ _ R). destruct (Nat.eq_dec o' o) as [->|]; [contradiction|auto]. }
  assert (Hv1 : exists v1, nth_error (objs s1) o = Some (Some v1) /\ Z.of_nat (olen v1) = n).
  { destruct (G2 s1 eq_refl) as [[_ [-> Hz]]|[m [Hz [_ R]]]].
    - exists v. split; auto.
    - assert (Ho' := rs_objs _ _ _ _ _ _ R o). destruct (Nat.eq_dec o o); [|congruence].
      eexists. split; [exact Ho'|]. simpl. lia. }
  destruct Hv1 as [v1 [Hv1 Hlv1]].
  destruct (built_ext s s1 e Hext (conj Ha Hw)) as [Ha1 Hw1].
  assert (Hz1 := esz_ext s s1 e Hext).
  rewrite (bindM_ok _ _ _ _ _ (e_size_ok _ _ Ha1)).
  destruct (store_good s1 o v1 (Z.to_nat (esz s1 e)) (fun i => e_get e i)) as [[s2 [E2 Sh2]]|E2]; auto.
  { lia. }
  { intros k sk Hk Sh. eapply e_get_shape_safe; eauto; [split; auto|]. lia. }
  2:{ rewrite (bindM_ub _ _ _ _ E2). reflexivity. }
  rewrite (bindM_ok _ _ _ _ _ E2).
  assert (Ha2 : all_alive s2 e).
  { apply all_alive_iff. destruct Sh2 as [-> _]. now apply all_alive_iff. }
  assert (Hz2 : esz s2 e = esz s1 e).
  { apply esz_ext. intros. destruct Sh2 as [-> _]. auto. }
  rewrite (bindM_ok _ _ _ _ _ (e_size_ok _ _ Ha2)). rewrite Hz2, Hz1.
  destruct (Z.ltb_spec (esz s e) 0); [lia|].
  destruct (put_elements_good s1 o v1 Hs1 Hv1 l (Z.to_nat (esz s e)) s2) as [s' [E Sh]]; auto; [lia|].
  rewrite E. eapply (good_shape_after s s1); eauto.
Qed.

(** ** Object creation and destruction *)
Lemma move_assign_good (s : state) o1 o2 v1 v2 : sound s ->
  nth_error (objs s) o1 = Some (Some v1) -> nth_error (objs s) o2 = Some (Some v2) ->
  exists s', move_assign o1 o2 s = ROk tt s' /\ sound s' /\ length (objs s') = length (objs s).
Proof.
  intros [A [B C]] Hv1 Hv2. unfold move_assign.
  assert (K1 : okind v1 = KAllocated).
  { destruct (A o1 v1 Hv1) as [v' [X [Y _]]]. congruence. }
  assert (K2 : okind v2 = KAllocated).
  { destruct (A o2 v2 Hv2) as [v' [X [Y _]]]. congruence. }
  rewrite (bindM_ok _ _ _ v1 s) by (apply get_obj_ok; auto).
  rewrite (bindM_ok _ _ _ v2 s) by (apply get_obj_ok; auto).
  destruct (set_obj_ok s o1 (Some (VObj (okind v1) (oaddr v2) (olen v2)))) as [s1 [E1 [Hb1 [_ [Hl1 Ho1]]]]].
  { apply nth_error_Some; congruence. }
  rewrite (bindM_ok _ _ _ _ _ E1).
  destruct (set_obj_ok s1 o2 (Some (VObj (okind v2) (oaddr v1) (olen v1)))) as [s2 [E2 [Hb2 [_ [Hl2 Ho2]]]]].
  { rewrite Hl1. apply nth_error_Some; congruence. }
  exists s2. split; auto. split; [|congruence].
  assert (Hg : forall b, get_block s2 b = get_block s b).
  { intros b. rewrite (blocks_get_block _ _ _ Hb2). apply blocks_get_block; auto. }
  (* object o of the new table is object p o of the old one *)
  set (p := fun o => if Nat.eq_dec o o2 then o1 else if Nat.eq_dec o o1 then o2 else o).
  assert (Hp : forall o v, nth_error (objs s2) o = Some (Some v) ->
     exists v', nth_error (objs s) (p o) = Some (Some v') /\ okind v = okind v' /\
                oaddr v = oaddr v' /\ olen v = olen v').
  { intros o v Hv. rewrite Ho2 in Hv. unfold p. destruct (Nat.eq_dec o o2) as [->|].
    - injection Hv as <-. exists v1. simpl. repeat split; auto. congruence.
    - rewrite Ho1 in Hv. destruct (Nat.eq_dec o o1) as [->|].
      + injection Hv as <-. exists v2. simpl. repeat split; auto. congruence.
      + exists v. auto. }
  assert (Hq : forall o v', nth_error (objs s) o = Some (Some v') ->
     exists v, nth_error (objs s2) (p o) = Some (Some v) /\ oaddr v = oaddr v').
  { intros o v' Hv. unfold p. rewrite !Ho2, !Ho1.
    destruct (Nat.eq_dec o o2) as [->|].
    - rewrite Hv2 in Hv. injection Hv as <-.
      destruct (Nat.eq_dec o1 o2) as [<-|].
      + eexists; split; [reflexivity|]. simpl. congruence.
      + destruct (Nat.eq_dec o1 o1); [|congruence]. eexists; split; [reflexivity|]; auto.
    - destruct (Nat.eq_dec o o1) as [->|].
      + rewrite Hv1 in Hv. injection Hv as <-. destruct (Nat.eq_dec o2 o2); [|congruence].
        eexists; split; [reflexivity|]; auto.
      + destruct (Nat.eq_dec o o2); [congruence|]. destruct (Nat.eq_dec o o1); [congruence|]. eauto. }
  assert (Hinj : forall a b, p a = p b -> a = b).
  { intros a b. unfold p. destruct (Nat.eq_dec a o2), (Nat.eq_dec a o1), (Nat.eq_dec b o2), (Nat.eq_dec b o1);
      subst; intros; subst; try congruence. }
  split; [|split].
  - intros o v Hv. destruct (Hp o v Hv) as [v' [P1 [P2 [P3 P4]]]].
    destruct (A _ _ P1) as [v'' [Q1 [Q2 Q3]]]. rewrite P1 in Q1. injection Q1 as <-.
    exists v. split; auto. split; [congruence|]. rewrite P3, P4.
    destruct (oaddr v') as [[b off]|]; auto. now rewrite Hg.
  - intros oa ob va vb b f1 f2 Ha Hb' E3 E4.
    destruct (Hp _ _ Ha) as [va' [P1 [_ [P3 _]]]]. destruct (Hp _ _ Hb') as [vb' [Q1 [_ [Q3 _]]]].
    apply Hinj. apply (B (p oa) (p ob) va' vb' b f1 f2); auto; congruence.
  - intros b cs Hcs. rewrite Hg in Hcs. destruct (C _ _ Hcs) as [o [v [off [D1 D2]]]].
    destruct (Hq _ _ D1) as [v' [Q1 Q2]]. exists (p o), v', off. split; auto. congruence.
Qed.

Lemma sound_new (s : state) : sound s ->
  sound (St (blocks s) (objs s ++ [Some (VObj KAllocated None 0)]) (sched s)).
Proof.
  intros [A [B C]].
  assert (Hn : forall o v, nth_error (objs s ++ [Some (VObj KAllocated None 0)]) o = Some (Some v) ->
     nth_error (objs s) o = Some (Some v) \/ v = VObj KAllocated None 0).
  { intros o v H. destruct (Nat.lt_ge_cases o (length (objs s))) as [Hl|Hl].
    - rewrite nth_error_app1 in H by auto. auto.
    - rewrite nth_error_app2 in H by auto. destruct (o - length (objs s)) as [|[|k]]; simpl in H; try discriminate.
      injection H as <-. auto. }
  split; [|split]; simpl.
  - intros o v Hv. destruct (Hn o v Hv) as [H| ->].
    + destruct (A o v H) as [v' [X [Y Z]]]. exists v. split; auto. rewrite H in X. injection X as <-. auto.
    + exists (VObj KAllocated None 0). simpl. auto.
  - intros o1 o2 v1 v2 b f1 f2 H1 H2 E1 E2.
    destruct (Hn _ _ H1) as [H1'| ->]; [|discriminate].
    destruct (Hn _ _ H2) as [H2'| ->]; [|discriminate]. eauto.
  - intros b cs Hcs. destruct (C b cs Hcs) as [o [v [off [D1 D2]]]]. exists o, v, off. split; auto.
    rewrite nth_error_app1; auto. apply nth_error_Some; congruence.
Qed.

Lemma ctor_good (s : state) (body : nat -> M unit) : sound s ->
  (forall s1, sound s1 -> s1 = St (blocks s) (objs s ++ [Some (VObj KAllocated None 0)]) (sched s) ->
     nth_error (objs s1) (length (objs s)) = Some (Some (VObj KAllocated None 0)) ->
     good s1 (body (length (objs s)) s1)) ->
  match void (ctor body) s with
  | ROk _ s' => sound s'
  | RThrow _ s' => blocks s' = blocks s /\ objs s' = objs s
  | RUB u => u = UBIndet
  end.
Proof.
  intros Hs Hb. unfold void, bindM, ctor. simpl.
  set (s1 := St (blocks s) (objs s ++ [Some (VObj KAllocated None 0)]) (sched s)).
  assert (H := Hb s1 (sound_new s Hs) eq_refl).
  assert (Hnth : nth_error (objs s1) (length (objs s)) = Some (Some (VObj KAllocated None 0))).
  { simpl. rewrite nth_error_app2 by auto. now rewrite Nat.sub_diag. }
  specialize (H Hnth). destruct (body (length (objs s)) s1) as [[] s2|e s2|u]; simpl in *; auto.
  - destruct H; auto.
  - destruct H as [H1 H2]. split; auto. rewrite H2. apply removelast_last.
Qed.

Lemma dtor_good (s : state) o v : sound s -> nth_error (objs s) o = Some (Some v) ->
  exists s', dtor true o s = ROk tt s' /\ sound s' /\
    (forall o', nth_error (objs s') o' = if Nat.eq_dec o' o then Some None else nth_error (objs s) o') /\
    length (objs s') = length (objs s).
Proof.
  intros [A [B C]] Hv. unfold dtor. rewrite (bindM_ok _ _ _ v s) by (apply get_obj_ok; auto).
  rewrite (bindM_ok _ _ _ tt s) by reflexivity.
  destruct (A o v Hv) as [v' [X [Y Z]]]. rewrite Hv in X. injection X as <-.
  assert (HD : exists s1, dealloc (oaddr v) (olen v) s = ROk tt s1 /\ objs s1 = objs s /\
     (forall b, get_block s1 b = match oaddr v with
        | Some (b0, _) => if Nat.eq_dec b b0 then None else get_block s b
        | None => get_block s b end)).
  { destruct (oaddr v) as [[b0 off]|].
    - destruct Z as [-> [cs [Z1 Z2]]].
      destruct (set_block_ok s b0 Freed (get_block_bound _ _ _ Z1)) as [s2 [Es [Ho2 [_ [_ Hg2]]]]].
      exists s2. unfold dealloc. rewrite Z1, Z2, !Nat.eqb_refl. cbn [andb Nat.eqb]. rewrite Es. auto.
    - exists s. auto. }
  destruct HD as [s1 [E1 [Ho1 Hg1]]]. rewrite (bindM_ok _ _ _ _ _ E1).
  destruct (set_obj_ok s1 o None) as [s2 [E2 [Hb2 [_ [Hl2 Ho2]]]]].
  { rewrite Ho1. apply nth_error_Some; congruence. }
  exists s2. split; auto.
  assert (Hg : forall b, get_block s2 b = match oaddr v with
        | Some (b0, _) => if Nat.eq_dec b b0 then None else get_block s b
        | None => get_block s b end).
  { intros b. rewrite (blocks_get_block _ _ _ Hb2). auto. }
  rewrite Ho1 in *. split; [|split; auto]. split; [|split].
  - intros o' v' Hv'. rewrite Ho2 in Hv'. destruct (Nat.eq_dec o' o) as [->|Hne]; [discriminate|].
    destruct (A _ _ Hv') as [v2 [P [Q R]]]. rewrite Hv' in P. injection P as <-.
    exists v'. rewrite Ho2. destruct (Nat.eq_dec o' o); [congruence|]. split; auto. split; auto.
    destruct (oaddr v') as [[b off]|] eqn:Ea; auto. destruct R as [-> [cs [R1 R2]]]. split; auto.
    exists cs. split; auto. rewrite Hg. destruct (oaddr v) as [[b0 f0]|] eqn:Eb; auto.
    destruct (Nat.eq_dec b b0) as [->|]; auto. exfalso. apply Hne. eapply B; eauto.
  - intros o1 o2 v1 v2 b f1 f2. rewrite !Ho2.
    destruct (Nat.eq_dec o1 o), (Nat.eq_dec o2 o); try discriminate. eauto.
  - intros b cs Hcs. rewrite Hg in Hcs.
    assert (Hcs' : get_block s b = Some cs /\ forall f, oaddr v <> Some (b, f)).
    { destruct (oaddr v) as [[b0 f0]|].
      - destruct (Nat.eq_dec b b0); [discriminate|]. split; auto. intros f; congruence.
      - split; auto. congruence. }
    destruct Hcs' as [Hcs1 Hcs2]. destruct (C b cs Hcs1) as [o' [v' [off [D1 D2]]]].
    exists o', v', off. rewrite Ho2. destruct (Nat.eq_dec o' o) as [->|]; auto.
    rewrite Hv in D1. injection D1 as <-. exfalso. eapply Hcs2; eauto.
Qed.

(** ** One call, and all histories *)
Definition step_good (s : state) (r : res T unit) : Prop :=
  match r with
  | ROk _ s' => sound s'
  | RThrow _ s' => blocks s' = blocks s /\ objs s' = objs s
  | RUB u => u = UBIndet
  end.

Lemma good_step_good (s : state) r : good s r -> step_good s r.
Proof. unfold good, step_good. destruct r; auto. tauto. Qed.

Lemma alive_inv (s : state) o : alive s o = true -> exists v, nth_error (objs s) o = Some (Some v).
Proof. apply alive_iff. Qed.

Lemma step_sound (s : state) p : sound s -> no_self_sub p -> step_good s (step true p s).
Proof.
  intros Hs Hp. destruct p; cbn [step].
  - (* default *) unfold void, bindM, ctor_default, new_obj. simpl. apply sound_new; auto.
  - (* size *) apply (ctor_good s (fun o => resize_fast true o n)); auto.
    intros s1 Hs1 _ Hn. eapply resize_fast_good; eauto.
  - (* list *) apply (ctor_good s (fun o => assign_elements true o (map SVal l))); auto.
    intros s1 Hs1 _ Hn. eapply assign_elements_good; eauto.
  - (* expr *) destruct (forallb (alive s) (e_objs e)) eqn:Ea; [|exact Hs].
    apply forallb_alive in Ea.
    apply (ctor_good s (fun o => assign true o e)); auto.
    intros s1 Hs1 -> Hn. eapply assign_good; eauto.
    + apply all_alive_iff. intros o Hin. destruct (proj1 (all_alive_iff s e) Ea o Hin) as [v Hv].
      exists v. simpl. rewrite nth_error_app1; auto. apply nth_error_Some; congruence.
    + intros Hu. assert (Hin : In (length (objs s)) (e_objs e)).
      { clear -Hu. induction e; simpl in *; try tauto; apply in_or_app; tauto. }
      destruct (proj1 (all_alive_iff s e) Ea _ Hin) as [v Hv].
      assert (length (objs s) < length (objs s)) by (apply nth_error_Some; congruence). lia.
  - (* move ctor *) destruct (alive s o) eqn:Ea; [|exact Hs]. apply alive_inv in Ea as [v Hv].
    apply (ctor_good s (fun o' => move_assign o' o)); auto.
    intros s1 Hs1 -> Hn.
    destruct (move_assign_good _ (length (objs s)) o _ v Hs1 Hn) as [s' [E [S' L']]].
    { simpl. rewrite nth_error_app1; auto. apply nth_error_Some; congruence. }
    rewrite E. split; auto.
  - (* assign *) destruct (alive s o) eqn:Eo; [|exact Hs].
    destruct (forallb (alive s) (e_objs e)) eqn:Ea; [|exact Hs].
    apply forallb_alive in Ea. apply alive_inv in Eo as [v Hv].
    apply good_step_good. eapply assign_good; eauto.
  - (* compound *) destruct (alive s o) eqn:Eo; [|exact Hs].
    destruct (forallb (alive s) (e_objs e)) eqn:Ea; [|exact Hs].
    apply forallb_alive in Ea. apply alive_inv in Eo as [v Hv].
    apply good_step_good. eapply compound_good; eauto.
  - (* scale *) destruct (alive s o) eqn:Eo; [|exact Hs]. apply alive_inv in Eo as [v Hv].
    apply good_step_good. eapply scale_good; eauto.
  - (* scale by element *) destruct (alive s o) eqn:Eo; [|exact Hs].
    destruct (alive s o') eqn:Eo'; [|exact Hs]. simpl.
    destruct (Nat.ltb_spec i (size_of s o')); [|exact Hs].
    apply alive_inv in Eo as [v Hv]. apply alive_inv in Eo' as [v' Hv']. rewrite Hv'.
    destruct (oaddr v') as [[b off]|] eqn:Ea'; [|exact Hs].
    apply good_step_good. eapply scale_good; eauto. simpl.
    rewrite (size_of_eq _ _ _ Hv') in H.
    destruct (obj_ok_cell s o' v' i) as [b2 [off2 [c [E1 E2]]]]; auto; [eapply sound_obj_ok; eauto|].
    rewrite Ea' in E1. injection E1 as <- <-. eauto.
  - (* fill *) destruct (alive s o) eqn:Eo; [|exact Hs]. apply alive_inv in Eo as [v Hv].
    apply good_step_good. eapply fill_good; eauto.
  - (* pairwise *) destruct (alive s o) eqn:Eo; [|exact Hs].
    destruct (forallb (alive s) (e_objs e)) eqn:Ea; [|exact Hs].
    apply forallb_alive in Ea. apply alive_inv in Eo as [v Hv].
    apply good_step_good. eapply pairwise_good; eauto.
  - (* parts *) destruct (alive s o) eqn:Eo; [|exact Hs].
    destruct (forallb (alive s) (e_objs e)) eqn:Ea; [|exact Hs]. simpl.
    destruct (Z.leb_spec 0 (esz s e)); [|exact Hs].
    apply forallb_alive in Ea. apply alive_inv in Eo as [v Hv].
    apply good_step_good. eapply assign_parts_good; eauto.
  - (* set *) destruct (alive s o) eqn:Eo; [|exact Hs]. apply alive_inv in Eo as [v Hv].
    apply good_step_good. eapply assign_elements_good; eauto.
  - (* move assign *) destruct (alive s o1) eqn:Eo1; [|exact Hs].
    destruct (alive s o2) eqn:Eo2; [|exact Hs]. simpl.
    apply alive_inv in Eo1 as [v1 Hv1]. apply alive_inv in Eo2 as [v2 Hv2].
    destruct (move_assign_good s o1 o2 v1 v2) as [s' [E [S' L']]]; auto. rewrite E. exact S'.
  - (* resize *) destruct (alive s o) eqn:Eo; [|exact Hs]. apply alive_inv in Eo as [v Hv].
    apply good_step_good. eapply resize_good; eauto.
  - (* resize_fast *) destruct (alive s o) eqn:Eo; [|exact Hs]. apply alive_inv in Eo as [v Hv].
    apply good_step_good. eapply resize_fast_good; eauto.
  - (* put *) destruct (alive s o) eqn:Eo; [|exact Hs]. simpl.
    destruct (Nat.ltb_spec i (size_of s o)); [|exact Hs]. apply alive_inv in Eo as [v Hv].
    rewrite (size_of_eq _ _ _ Hv) in H.
    destruct (put_good s o v i x) as [s' [E Sh]]; auto. rewrite E. eapply sound_shape; eauto.
  - (* destroy *) destruct (alive s o) eqn:Eo; [|exact Hs]. apply alive_inv in Eo as [v Hv].
    destruct (dtor_good s o v) as [s' [E [S' _]]]; auto. rewrite E. exact S'.
Qed.

Lemma sound_ext (s s' : state) : blocks s' = blocks s -> objs s' = objs s -> sound s -> sound s'.
Proof.
  intros Hb Ho [A [B C]]. assert (Hg : forall b, get_block s' b = get_block s b)
    by (intros; apply blocks_get_block; auto).
  split; [|split].
  - intros o v. rewrite Ho. intros Hv. destruct (A o v Hv) as [v' [X [Y Z]]]. exists v'. rewrite Ho.
    split; auto. split; auto. destruct (oaddr v') as [[b off]|]; auto. now rewrite Hg.
  - rewrite Ho. auto.
  - intros b cs. rewrite Hg, Ho. apply C.
Qed.

Lemma run_sound (h : list op) : forall s, sound s -> Forall no_self_sub h ->
  match run true h s with
  | ROk _ s' => sound s'
  | RThrow _ _ => False
  | RUB u => u = UBIndet
  end.
Proof.
  induction h as [|p h IH]; intros s Hs HF; simpl; auto.
  inversion HF as [|? ? Hp HF']; subst.
  assert (H := step_sound s p Hs Hp). unfold step_good in H.
  destruct (step true p s) as [[] s'|e s'|u]; auto.
  - apply IH; auto.
  - apply IH; auto. destruct H as [H1 H2]. eapply sound_ext; eauto.
Qed.

Lemma sound_init sch : sound (init sch : state).
Proof.
  split; [|split]; simpl.
  - intros [|o] v; discriminate.
  - intros [|o1] o2 v1 v2 b f1 f2; discriminate.
  - intros b cs. unfold get_block. simpl. destruct b; discriminate.
Qed.

(** Destroying everything frees everything. *)
Lemma destroy_all (n : nat) : forall s : state, sound s ->
  exists s', run true (map OpDestroy (seq 0 n)) s = ROk tt s' /\ sound s' /\
    length (objs s') = length (objs s) /\
    (forall o, o < n -> alive s' o = false) /\ (forall o, alive s o = false -> alive s' o = false).
Proof.
  assert (G : forall n k (s : state), sound s ->
    exists s', run true (map OpDestroy (seq k n)) s = ROk tt s' /\ sound s' /\
    length (objs s') = length (objs s) /\
    (forall o, k <= o < k + n -> alive s' o = false) /\ (forall o, alive s o = false -> alive s' o = false)).
  { clear n. induction n as [|n IH]; intros k s Hs; cbn [seq map run step].
    - exists s. repeat split; auto; try apply Hs. intros; lia.
    - destruct (alive s k) eqn:Ek.
      + apply alive_inv in Ek as [v Hv].
        destruct (dtor_good s k v) as [s1 [E [S1 [Ho1 Hl1]]]]; auto. rewrite E.
        destruct (IH (S k) s1 S1) as [s' [E' [S' [L' [D' K']]]]].
        exists s'. split; auto. split; auto. split; [congruence|]. split.
        * intros o Hr. destruct (Nat.eq_dec o k) as [->|]; [|apply D'; lia].
          apply K'. unfold alive. rewrite Ho1. destruct (Nat.eq_dec k k); congruence.
        * intros o Ho. apply K'. unfold alive in *. rewrite Ho1. destruct (Nat.eq_dec o k); auto.
      + cbn [ret]. destruct (IH (S k) s Hs) as [s' [E' [S' [L' [D' K']]]]].
        exists s'. split; auto. split; auto. split; auto. split; auto.
        intros o Hr. destruct (Nat.eq_dec o k) as [->|]; [auto|apply D'; lia]. }
  intros s Hs. destruct (G n 0 s Hs) as [s' [A [B [C [D E]]]]]. exists s'. repeat split; auto; try apply B.
  intros; apply D; lia.
Qed.

Lemma all_freed (s : state) : sound s -> (forall o, alive s o = false) ->
  forall b, get_block s b = None.
Proof.
  intros [_ [_ C]] Ha b. destruct (get_block s b) as [cs|] eqn:E; auto.
  destruct (C b cs E) as [o [v [off [D1 _]]]]. specialize (Ha o). unfold alive in Ha.
  rewrite D1 in Ha. discriminate.
Qed.

Lemma no_leak_l (h : list op) sch s : Forall no_self_sub h ->
  run true h (init sch) = ROk tt s ->
  exists s', run true (map OpDestroy (seq 0 (length (objs s)))) s = ROk tt s' /\
    forall b, get_block s' b = None.
Proof.
  intros HF E. assert (H := run_sound h (init sch) (sound_init sch) HF). rewrite E in H.
  destruct (destroy_all (length (objs s)) s H) as [s' [A [B [C [D F]]]]].
  exists s'. split; auto. apply all_freed; auto. intros o.
  destruct (Nat.lt_ge_cases o (length (objs s))); auto.
  unfold alive. destruct (nth_error (objs s') o) eqn:En; auto.
  assert (o < length (objs s')) by (apply nth_error_Some; congruence). lia.
Qed.

End Ownership.
