(** Functional correctness of assignment, resize and in-place operations. *)
From Coq Require Import List ZArith Bool Arith Lia.
From Verif Require Import Base BaseFacts HeapModel HeapSpec HeapFacts.
Import ListNotations.

Section HeapProofs.
Context {T : Type}.
Notation state := (state T).
Notation vexpr := (vexpr T).
Notation M := (M T).

Lemma bindM_ok {A B} (m : M A) (f : A -> M B) s a s1 :
  m s = ROk a s1 -> bindM m f s = f a s1.
Proof. unfold bindM; intros ->; reflexivity. Qed.
Lemma bindM_throw {A B} (m : M A) (f : A -> M B) s e s1 :
  m s = RThrow e s1 -> bindM m f s = RThrow e s1.
Proof. unfold bindM; intros ->; reflexivity. Qed.
Lemma bindM_ub {A B} (m : M A) (f : A -> M B) s u :
  m s = RUB u -> bindM m f s = RUB u.
Proof. unfold bindM; intros ->; reflexivity. Qed.

(** [owned s v]: v has no memory, or a whole live block of its size. *)
Definition owned (s : state) (v : vobj) : Prop :=
  match oaddr v with
  | None => olen v = 0
  | Some (b, off) => off = 0 /\ bsize s b = Some (olen v)
  end.

Lemma requireM_true {s : state} (c : bool) e : c = true -> requireM c e s = ROk tt s.
Proof. intros ->; reflexivity. Qed.

Lemma cellat_get_block (s s' : state) b i : get_block s' b = get_block s b ->
  cellat s' b i = cellat s b i.
Proof. unfold cellat; intros ->; reflexivity. Qed.

(** ** resize *)
Record resized (s s' : state) (o : nat) (v : vobj) (n : nat) (keep : nat) : Prop := {
  rs_objs : forall o', nth_error (objs s') o' =
     if Nat.eq_dec o' o then Some (Some (VObj (okind v) (Some (length (blocks s), 0)) n))
     else nth_error (objs s) o';
  rs_len : length (objs s') = length (objs s);
  rs_sched : sched s' = tl (sched s);
  rs_blocks : length (blocks s') = S (length (blocks s));
  rs_new : bsize s' (length (blocks s)) = Some n;
  rs_keep : forall i, i < keep -> forall b off, oaddr v = Some (b, off) ->
     cellat s' (length (blocks s)) i = cellat s b (off + i);
  rs_rest : forall i, keep <= i < n -> cellat s' (length (blocks s)) i = Some None;
  rs_old : forall b off, oaddr v = Some (b, off) -> get_block s' b = None;
  rs_other : forall b, b <> length (blocks s) ->
     (forall off, oaddr v <> Some (b, off)) -> get_block s' b = get_block s b }.

Lemma resize_spec (s : state) o v n :
  nth_error (objs s) o = Some (Some v) -> owned s v -> n <> olen v ->
  (exists r, sched s = false :: r /\
     resize true o (Z.of_nat n) s = RThrow EBadAlloc (St (blocks s) (objs s) r)) \/
  (hd true (sched s) = true /\ exists s', resize true o (Z.of_nat n) s = ROk tt s' /\
     resized s s' o v n (Nat.min (olen v) n)).
Proof.
  intros Hv Hown Hn. unfold resize.
  rewrite (bindM_ok _ _ _ tt s) by (apply requireM_true; apply Z.leb_le; lia).
  rewrite (bindM_ok _ _ _ v s) by (apply get_obj_ok; auto).
  destruct (Z.eqb_spec (Z.of_nat n) (Z.of_nat (olen v))); [lia|].
  rewrite Nat2Z.id.
  destruct (alloc_spec s n) as [[r [Hr E1]]|[s1 [Hh [E1 [Ho1 [Hs1 Hb1]]]]]].
  { left. exists r; split; auto. now rewrite (bindM_throw _ _ _ _ _ E1). }
  rewrite (bindM_ok _ _ _ _ _ E1).
  right. split; auto. set (nb := length (blocks s)) in *.
  rewrite (bindM_ok _ _ _ tt s1) by reflexivity.
  assert (Hg1 : forall b, get_block s1 b =
            if Nat.eq_dec b nb then Some (repeat None n) else get_block s b).
  { intros b. rewrite (get_block_app _ _ _ b Hb1). reflexivity. }
  assert (Hlo : o < length (objs s)) by (apply nth_error_Some; congruence).
  unfold owned in Hown. destruct (oaddr v) as [[b off]|] eqn:Ea.
  - destruct Hown as [-> Hsz].
    assert (Hb : exists cs, get_block s b = Some cs /\ length cs = olen v).
    { unfold bsize in Hsz. destruct (get_block s b); simpl in Hsz; [|discriminate].
      injection Hsz as Hsz. eauto. }
    destruct Hb as [cs [Hcs Hlen]].
    assert (Hbn : b < nb) by (eapply get_block_bound; eauto).
    set (keep := Nat.min (olen v) n).
    destruct (forM_inv (fun k sk => same_shape s1 sk /\
        (forall b', b' <> nb -> get_block sk b' = get_block s1 b') /\
        (forall i, i < n -> cellat sk nb i = if i <? k then cellat s b i else Some None))
      (fun i => bindM (rd_cell b (0 + i)) (fun c => wr_cell nb i c)) keep 0 s1) as [s2 [E2 [A2 [B2 C2]]]].
    + split; [apply same_shape_refl|]. split; auto. intros i Hi.
      unfold cellat. rewrite Hg1. destruct (Nat.eq_dec nb nb); [|congruence].
      apply nth_error_repeat; auto.
    + intros k sk Hk [A [B C]]. unfold bindM.
      assert (Hck : exists c, nth_error cs k = Some c).
      { destruct (nth_error cs k) eqn:E; eauto. apply nth_error_None in E. lia. }
      destruct Hck as [c Hc].
      assert (Hrd : cellat sk b (0 + k) = Some c).
      { simpl. unfold cellat. rewrite B by lia. rewrite Hg1.
        destruct (Nat.eq_dec b nb); [lia|]. now rewrite Hcs. }
      rewrite (rd_cell_ok _ _ _ _ Hrd).
      assert (Hnk : exists c0, cellat sk nb k = Some c0).
      { rewrite C by lia. rewrite Nat.ltb_irrefl. eauto. }
      destruct Hnk as [c0 Hnk].
      destruct (wr_cell_ok sk nb k c c0 Hnk) as [s' [E [Sh Hcell]]].
      exists s'. split; auto. split; [eapply same_shape_trans; eauto|]. split.
      * intros b' Hb'. rewrite <- B by auto.
        (* block b' untouched: compare cells and sizes *)
        assert (Hsz' := proj2 (proj2 (proj2 Sh)) b'). unfold bsize in Hsz'.
        assert (Hc' : forall i', cellat s' b' i' = cellat sk b' i').
        { intros i'. rewrite Hcell. destruct (Nat.eq_dec b' nb); [lia|auto]. }
        unfold cellat in Hc'. destruct (get_block s' b') as [l1|], (get_block sk b') as [l2|]; simpl in Hsz'; try discriminate; auto.
        f_equal. apply list_ext. auto.
      * intros i Hi. rewrite Hcell. destruct (Nat.eq_dec nb nb); [|congruence].
        destruct (Nat.eq_dec i k) as [->|Hik].
        -- replace (k <? S k) with true by (symmetry; apply Nat.ltb_lt; lia).
           unfold cellat. now rewrite Hcs.
        -- rewrite C by auto. destruct (Nat.ltb_spec i k), (Nat.ltb_spec i (S k)); auto; lia.
    + simpl in C2.
      assert (Hg2 : get_block s2 b = Some cs).
      { rewrite B2 by lia. rewrite Hg1. destruct (Nat.eq_dec b nb); [lia|auto]. }
      destruct (set_block_ok s2 b Freed (get_block_bound _ _ _ Hg2)) as [s3 [Es3 [Ho3 [Hs3 [Hl3 Hg3]]]]].
      rewrite (bindM_ok _ _ s1 tt s3).
      2:{ rewrite (bindM_ok _ _ s1 tt s2 E2). unfold dealloc.
          rewrite Hg2, Hlen, !Nat.eqb_refl. cbn [andb Nat.eqb]. now rewrite Es3. }
      destruct (set_obj_ok s3 o (Some (VObj (okind v) (Some (nb, 0)) n))) as [s4 [E4 [Hb4 [Hs4 [Hl4 Ho4]]]]].
      { rewrite Ho3. destruct A2 as [A2 _]. rewrite A2, Ho1. auto. }
      exists s4. split; [exact E4|].
      destruct A2 as [A2o [A2s [A2l A2b]]].
      assert (Hgn : get_block s4 nb = get_block s2 nb).
      { rewrite (blocks_get_block _ _ _ Hb4), Hg3. destruct (Nat.eq_dec nb b); [lia|auto]. }
      split.
      * intros o'. rewrite Ho4. destruct (Nat.eq_dec o' o); auto. now rewrite Ho3, A2o, Ho1.
      * rewrite Hl4, Ho3, A2o, Ho1; auto.
      * rewrite Hs4, Hs3, A2s; auto.
      * rewrite Hb4, Hl3, A2l, Hb1, app_length. simpl. fold nb. lia.
      * unfold bsize. fold nb. rewrite Hgn. fold (bsize s2 nb). rewrite A2b. unfold bsize. rewrite Hg1.
        destruct (Nat.eq_dec nb nb); [|congruence]. simpl. now rewrite repeat_length.
      * intros i Hi b' off' E. rewrite Ea in E. injection E as <- <-. simpl. fold nb.
        rewrite (cellat_get_block _ _ _ _ Hgn), C2 by (unfold keep in *; lia).
        replace (i <? keep) with true by (symmetry; apply Nat.ltb_lt; auto). reflexivity.
      * intros i Hi. fold nb. rewrite (cellat_get_block _ _ _ _ Hgn), C2 by lia.
        replace (i <? keep) with false by (symmetry; apply Nat.ltb_ge; unfold keep; lia). reflexivity.
      * intros b' off' E. rewrite Ea in E. injection E as <- <-.
        rewrite (blocks_get_block _ _ _ Hb4), Hg3. destruct (Nat.eq_dec b b); congruence.
      * intros b' Hb' Hno. rewrite (blocks_get_block _ _ _ Hb4), Hg3.
        destruct (Nat.eq_dec b' b) as [->|]; [exfalso; eapply Hno; eauto|].
        rewrite B2 by auto. rewrite Hg1. destruct (Nat.eq_dec b' nb); [fold nb in Hb'; lia|auto].
  - rewrite (bindM_ok _ _ s1 tt s1) by reflexivity.
    destruct (set_obj_ok s1 o (Some (VObj (okind v) (Some (nb, 0)) n))) as [s4 [E4 [Hb4 [Hs4 [Hl4 Ho4]]]]].
    { rewrite Ho1. auto. }
    exists s4. split; [exact E4|]. rewrite Hown. simpl.
    split.
    + intros o'. rewrite Ho4. destruct (Nat.eq_dec o' o); auto. now rewrite Ho1.
    + rewrite Hl4, Ho1; auto.
    + rewrite Hs4, Hs1; auto.
    + rewrite Hb4, Hb1, app_length. simpl. fold nb. lia.
    + unfold bsize. fold nb. rewrite (blocks_get_block _ _ _ Hb4), Hg1.
      destruct (Nat.eq_dec nb nb); [|congruence]. simpl. now rewrite repeat_length.
    + lia.
    + intros i Hi. fold nb. unfold cellat. rewrite (blocks_get_block _ _ _ Hb4), Hg1.
      destruct (Nat.eq_dec nb nb); [|congruence]. apply nth_error_repeat. lia.
    + congruence.
    + intros b' Hb' Hno. rewrite (blocks_get_block _ _ _ Hb4), Hg1.
      destruct (Nat.eq_dec b' nb); [fold nb in Hb'; lia|auto].
Qed.

Lemma resize_neg (s : state) o n : (n < 0)%Z -> forall tr, resize tr o n s = RThrow EInvalidArgument s.
Proof.
  intros H tr. unfold resize, bindM, requireM. destruct (Z.leb_spec 0 n); [lia|]. reflexivity.
Qed.

Lemma resize_same (s : state) o v tr : nth_error (objs s) o = Some (Some v) ->
  resize tr o (Z.of_nat (olen v)) s = ROk tt s.
Proof.
  intros Hv. unfold resize.
  rewrite (bindM_ok _ _ _ tt s) by (apply requireM_true; apply Z.leb_le; lia).
  rewrite (bindM_ok _ _ _ v s) by (apply get_obj_ok; auto). now rewrite Z.eqb_refl.
Qed.

(** ** put *)
Lemma obj_put_ok (s : state) o v b off i x c :
  nth_error (objs s) o = Some (Some v) -> oaddr v = Some (b, off) ->
  cellat s b (off + i) = Some c -> exists s',
  obj_put o i x s = ROk tt s' /\ same_shape s s' /\
  forall b' i', cellat s' b' i' =
    if Nat.eq_dec b' b then if Nat.eq_dec i' (off + i) then Some (Some x) else cellat s b' i'
    else cellat s b' i'.
Proof.
  intros Hv Ha Hc. unfold obj_put, bindM. rewrite (get_obj_ok _ _ _ Hv), Ha.
  eapply wr_cell_ok; eauto.
Qed.

Lemma obj_get_ok (s : state) o v b off i x :
  nth_error (objs s) o = Some (Some v) -> oaddr v = Some (b, off) ->
  cellat s b (off + i) = Some (Some x) -> obj_get o i s = ROk x s.
Proof.
  intros Hv Ha Hc. unfold obj_get, bindM. rewrite (get_obj_ok _ _ _ Hv), Ha.
  unfold rd, bindM. now rewrite (rd_cell_ok _ _ _ _ Hc).
Qed.

(** ** Elementwise expressions *)
(** Value of an elementwise expression at i depends only on the i-th elements. *)
Lemma e_get_ext (s s' : state) e i : elementwise e ->
  (forall o, In o (e_objs e) -> nth_error (objs s') o = nth_error (objs s) o) ->
  (forall o v b off, In o (e_objs e) -> nth_error (objs s) o = Some (Some v) ->
     oaddr v = Some (b, off) -> cellat s' b (off + i) = cellat s b (off + i)) ->
  forall x, e_get e i s = ROk x s -> e_get e i s' = ROk x s'.
Proof.
  induction e; cbn [e_get e_objs elementwise]; intros He Ho Hc x H; try contradiction.
  - unfold obj_get, bindM, get_obj in *. rewrite Ho by now left.
    destruct (nth_error (objs s) o) as [[v|]|] eqn:E; try discriminate.
    destruct (oaddr v) as [[b off]|] eqn:Ea; [|discriminate].
    assert (Hc' := Hc o v b off (or_introl eq_refl) E Ea).
    unfold rd, bindM in *. destruct (rd_cell_inv s b (off + i)) as [[c [C1 C2]]|[C1 C2]];
      rewrite C2 in H; [|discriminate].
    rewrite C1 in Hc'. rewrite (rd_cell_ok _ _ _ _ Hc').
    destruct c; unfold ret, ubM in *; [|discriminate]. congruence.
  - destruct (nth_error l i); unfold ret, ubM in *; [|discriminate]. congruence.
  - unfold bindM in *. destruct (e_get e i s) as [y sy| |] eqn:E; try discriminate.
    assert (sy = s) by (eapply e_get_state; eauto). subst sy.
    rewrite (IHe He Ho Hc y eq_refl). unfold ret in *. congruence.
  - unfold bindM in *. destruct He as [He1 He2].
    destruct (e_get e1 i s) as [y sy| |] eqn:E; try discriminate.
    assert (sy = s) by (eapply e_get_state; eauto). subst sy.
    destruct (e_get e2 i s) as [z sz| |] eqn:E2; try discriminate.
    assert (sz = s) by (eapply e_get_state; eauto). subst sz.
    rewrite (IHe1 He1) with (x := y); auto;
      [|intros; apply Ho, in_or_app; auto | intros; eapply Hc; eauto; apply in_or_app; auto].
    rewrite (IHe2 He2) with (x := z); auto;
      [|intros; apply Ho, in_or_app; auto | intros; eapply Hc; eauto; apply in_or_app; auto].
    unfold ret in *. congruence.
  - unfold bindM in *. destruct (e_get e i s) as [y sy| |] eqn:E; try discriminate.
    assert (sy = s) by (eapply e_get_state; eauto). subst sy.
    rewrite (IHe He Ho Hc y eq_refl). unfold ret in *. congruence.
Qed.

(** The leaf window starts at or after the target window, or does not meet it. *)
Definition leaf_safe (s : state) (bt offt n : nat) (o : nat) : Prop :=
  forall v b off, nth_error (objs s) o = Some (Some v) -> oaddr v = Some (b, off) ->
  b <> bt \/ offt <= off \/ off + n <= offt.

(** The store loop of assign: [f] gives the value to store at i. *)
Lemma store_loop (s : state) o v bt offt n (body : nat -> M T) (vals : nat -> T) :
  nth_error (objs s) o = Some (Some v) -> oaddr v = Some (bt, offt) ->
  (forall i, i < n -> exists c, cellat s bt (offt + i) = Some c) ->
  (forall k sk, k < n -> same_shape s sk ->
     (forall b i, cellat sk b i =
        if Nat.eq_dec b bt then if (offt <=? i) && (i <? offt + k)
                                then Some (Some (vals (i - offt))) else cellat s b i
        else cellat s b i) ->
     body k sk = ROk (vals k) sk) ->
  exists s', forM n 0 (fun i => bindM (body i) (fun x => obj_put o i x)) s = ROk tt s' /\
    same_shape s s' /\
    forall b i, cellat s' b i =
      if Nat.eq_dec b bt then if (offt <=? i) && (i <? offt + n)
                              then Some (Some (vals (i - offt))) else cellat s b i
      else cellat s b i.
Proof.
  intros Hv Ha Hc Hbody.
  destruct (forM_inv (fun k sk => same_shape s sk /\
     (forall b i, cellat sk b i =
        if Nat.eq_dec b bt then if (offt <=? i) && (i <? offt + k)
                                then Some (Some (vals (i - offt))) else cellat s b i
        else cellat s b i))
     (fun i => bindM (body i) (fun x => obj_put o i x)) n 0 s) as [s' [E [A B]]].
  - split; [apply same_shape_refl|]. intros b i. destruct (Nat.eq_dec b bt); auto.
    destruct (Nat.leb_spec offt i), (Nat.ltb_spec i (offt + 0)); auto; lia.
  - intros k sk Hk [A B]. unfold bindM. rewrite (Hbody k sk) by (auto; lia).
    destruct (same_shape_cellat s sk bt (offt + k) A) as [c Hck]; [apply Hc; lia|].
    destruct (obj_put_ok sk o v bt offt k (vals k) c) as [s' [E [Sh Hcell]]]; auto.
    { rewrite (same_shape_obj _ _ _ A); auto. }
    exists s'. split; auto. split; [eapply same_shape_trans; eauto|].
    intros b i. rewrite Hcell. destruct (Nat.eq_dec b bt) as [->|]; [|rewrite B; destruct (Nat.eq_dec b bt); congruence].
    destruct (Nat.eq_dec i (offt + k)) as [->|Hi].
    + replace ((offt <=? offt + k) && (offt + k <? offt + S k)) with true.
      * repeat f_equal. lia.
      * symmetry. apply andb_true_iff. split; [apply Nat.leb_le|apply Nat.ltb_lt]; lia.
    + rewrite B. destruct (Nat.eq_dec bt bt); [|congruence].
      destruct (Nat.leb_spec offt i), (Nat.ltb_spec i (offt + k)), (Nat.ltb_spec i (offt + S k));
        simpl; auto; lia.
  - exists s'. auto.
Qed.

Lemma forM_ext (f g : nat -> M unit) n : forall i s,
  (forall k s, i <= k < i + n -> f k s = g k s) -> forM n i f s = forM n i g s.
Proof.
  induction n as [|n IH]; intros i s H; simpl; auto.
  unfold bindM. rewrite H by lia. destruct (g i s); auto. apply IH; intros; apply H; lia.
Qed.

(** Assignment without resize. *)
Lemma assign_core (s : state) o v e n (vals : nat -> T) :
  nth_error (objs s) o = Some (Some v) -> olen v = n -> obj_ok s o ->
  elementwise e -> built s e -> esz s e = Z.of_nat n ->
  (forall bt offt, oaddr v = Some (bt, offt) ->
     forall o', In o' (e_objs e) -> leaf_safe s bt offt n o') ->
  (forall i, i < n -> e_get e i s = ROk (vals i) s) ->
  exists s', forM n 0 (fun i => bindM (e_get e i) (fun x => obj_put o i x)) s = ROk tt s' /\
    same_shape s s' /\
    (forall b i, (forall bt offt, oaddr v = Some (bt, offt) -> b = bt -> ~ (offt <= i < offt + n)) ->
        cellat s' b i = cellat s b i) /\
    (forall bt offt i, oaddr v = Some (bt, offt) -> i < n ->
        cellat s' bt (offt + i) = Some (Some (vals i))).
Proof.
  intros Hv Hn Hok He Hb Hsz Hsafe Hvals.
  destruct (oaddr v) as [[bt offt]|] eqn:Ea.
  2:{ assert (n = 0). { destruct Hok as [v' [A B]]. rewrite Hv in A. injection A as <-. rewrite Ea in B. lia. }
      subst n. rewrite H. simpl. exists s. split; auto. split; [apply same_shape_refl|].
      split; auto. intros; lia. }
  destruct (store_loop s o v bt offt n (fun i => e_get e i) vals) as [s' [E [Sh Hc]]]; auto.
  - intros i Hi. destruct (obj_ok_cell s o v i) as [b [off [c [E1 E2]]]]; auto; [lia|].
    rewrite Ea in E1. injection E1 as <- <-. eauto.
  - intros k sk Hk Sh Hc. apply (e_get_ext s sk); auto.
    + intros; apply same_shape_obj; auto.
    + intros o' v' b off Hin Ho' Ha'. rewrite Hc.
      destruct (Nat.eq_dec b bt) as [->|]; auto.
      destruct (Nat.leb_spec offt (off + k)), (Nat.ltb_spec (off + k) (offt + k)); simpl; auto.
      exfalso. destruct (Hsafe bt offt eq_refl o' Hin v' bt off Ho' Ha') as [|[|]]; try congruence; try lia.
  - exists s'. split; auto. split; auto. split.
    + intros b i Hout. rewrite Hc. destruct (Nat.eq_dec b bt) as [->|]; auto.
      destruct (Nat.leb_spec offt i), (Nat.ltb_spec i (offt + n)); simpl; auto.
      exfalso. apply (Hout bt offt); auto.
    + intros bt' offt' i E' Hi. injection E' as <- <-. rewrite Hc.
      destruct (Nat.eq_dec bt bt); [|congruence].
      replace ((offt <=? offt + i) && (offt + i <? offt + n)) with true.
      * repeat f_equal; lia.
      * symmetry. apply andb_true_iff. split; [apply Nat.leb_le|apply Nat.ltb_lt]; lia.
Qed.

Lemma elementwise_size (s : state) e o v : elementwise e -> built s e -> In o (e_objs e) ->
  nth_error (objs s) o = Some (Some v) -> esz s e = Z.of_nat (olen v).
Proof.
  induction e; simpl; intros He Hb Hin Hv; try contradiction.
  - destruct Hin as [->|[]]. now rewrite (size_of_eq _ _ _ Hv).
  - apply IHe; auto.
  - destruct He as [He1 He2], Hb as [[A1 A2] [B1 [B2 B3]]]. simpl in *.
    apply in_app_or in Hin as [Hin|Hin].
    + apply IHe1; auto; split; auto.
    + rewrite B3. apply IHe2; auto; split; auto.
  - apply IHe; auto.
Qed.

End HeapProofs.
