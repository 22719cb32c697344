(** Construction from elements and parts, resize, size checks. *)
From Coq Require Import List ZArith Bool Arith Lia.
From Verif Require Import Base BaseFacts HeapModel HeapSpec HeapFacts HeapProofs HeapAssign.
Import ListNotations.

Section HeapParts.
Context {T : Type}.
Notation state := (state T).
Notation vexpr := (vexpr T).
Notation sref := (sref T).
Notation M := (M T).

Lemma Forall2_len {A B} (R : A -> B -> Prop) l1 l2 : Forall2 R l1 l2 -> length l1 = length l2.
Proof. induction 1; simpl; congruence. Qed.

Lemma put_elements_cells (s : state) o v b off : nth_error (objs s) o = Some (Some v) ->
  oaddr v = Some (b, off) ->
  forall rs xs i sk, same_shape s sk ->
  (forall k, k < olen v -> exists c, cellat s b (off + k) = Some c) ->
  i + length rs <= olen v ->
  Forall2 (fun r x => ref_value sk r = Some x /\ ~ ref_inside s r o) rs xs ->
  exists s', put_elements o i rs sk = ROk tt s' /\ same_shape s s' /\
    forall b' i', cellat s' b' i' =
      if Nat.eq_dec b' b then if (off + i <=? i') && (i' <? off + i + length rs)
          then option_map Some (nth_error xs (i' - off - i)) else cellat sk b' i'
      else cellat sk b' i'.
Proof.
  intros Hv Ha. induction rs as [|r rs IH]; intros xs i sk Sh Hm Hlen HF.
  - simpl. exists sk. split; auto. split; auto. intros b' i'.
    destruct (Nat.eq_dec b' b); auto.
    destruct (Nat.leb_spec (off + i) i'), (Nat.ltb_spec i' (off + i + 0)); simpl; auto; lia.
  - inversion HF as [|r' x rs' xs' [Hr Hnin] HF' E1 E2]; subst. simpl in Hlen.
    cbn [put_elements]. rewrite (bindM_ok _ _ _ _ _ (sread_ok _ _ _ Hr)).
    destruct (same_shape_cellat s sk b (off + i) Sh) as [c Hck]; [apply Hm; lia|].
    destruct (obj_put_ok sk o v b off i x c) as [s1 [E [Sh1 Hc1]]]; auto.
    { rewrite (same_shape_obj _ _ _ Sh); auto. }
    rewrite (bindM_ok _ _ _ _ _ E).
    destruct (IH xs' (S i) s1) as [s' [E' [Sh' Hc']]]; auto.
    + eapply same_shape_trans; eauto.
    + lia.
    + clear -HF' Hc1 Hv Ha Hlen. induction HF' as [|r x' rs xs [A B] HF' IH]; constructor.
      * split; auto. destruct r as [|b' i']; simpl in *; auto. rewrite Hc1.
        destruct (Nat.eq_dec b' b) as [->|]; auto. destruct (Nat.eq_dec i' (off + i)) as [->|]; auto.
        exfalso. apply B. exists v, off. repeat split; auto; lia.
      * apply IH. simpl in Hlen. lia.
    + exists s'. split; auto. split; auto. intros b' i'. rewrite Hc', Hc1. cbn [length].
      destruct (Nat.eq_dec b' b) as [->|]; auto.
      destruct (Nat.eq_dec i' (off + i)) as [->|Hi].
      * replace (off + S i <=? off + i) with false by (symmetry; apply Nat.leb_gt; lia). simpl.
        replace ((off + i <=? off + i) && (off + i <? off + i + S (length rs))) with true
          by (symmetry; apply andb_true_iff; split; [apply Nat.leb_le|apply Nat.ltb_lt]; lia).
        replace (off + i - off - i) with 0 by lia. reflexivity.
      * destruct (Nat.leb_spec (off + S i) i'), (Nat.leb_spec (off + i) i'),
          (Nat.ltb_spec i' (off + S i + length rs)), (Nat.ltb_spec i' (off + i + S (length rs)));
          simpl; auto; try lia.
        replace (i' - off - i) with (S (i' - off - S i)) by lia. reflexivity.
Qed.

(** References survive the resize of a vector they do not point into. *)
Lemma ref_resized (s s' : state) o v n k r x :
  nth_error (objs s) o = Some (Some v) -> owns_block s o -> resized s s' o v n k ->
  ref_value s r = Some x -> ~ ref_inside s r o ->
  ref_value s' r = Some x /\ ~ ref_inside s' r o.
Proof.
  intros Hv Hown R Hr Hn. destruct r as [y|b i]; simpl in *; auto.
  destruct (cellat s b i) as [[y|]|] eqn:Ec; try discriminate.
  assert (Hb : exists cs, get_block s b = Some cs /\ nth_error cs i = Some (Some y)).
  { unfold cellat in Ec. destruct (get_block s b) eqn:Eb; [eauto|discriminate]. }
  destruct Hb as [cs [Hb Hi]]. assert (Hlt := get_block_bound _ _ _ Hb).
  split.
  - assert (Eg : get_block s' b = get_block s b).
    { apply (rs_other _ _ _ _ _ _ R); [lia|]. intros off Ea. apply Hn. exists v, off.
      split; auto. split; auto.
      destruct Hown as [v2 [A2 [_ C2]]]. rewrite Hv in A2. injection A2 as <-. rewrite Ea in C2.
      destruct C2 as [-> [cs' [C2 L2]]]. rewrite Hb in C2. injection C2 as <-.
      assert (i < length cs) by (apply nth_error_Some; congruence). lia. }
    rewrite (cellat_get_block _ _ _ _ Eg), Ec. auto.
  - intros [v2 [off2 [A2 [B2 C2]]]].
    assert (E2 := rs_objs _ _ _ _ _ _ R o). destruct (Nat.eq_dec o o); [|congruence].
    rewrite A2 in E2. injection E2 as ->. simpl in B2. injection B2 as <- <-. lia.
Qed.

(** Effect of a whole store phase on the other vectors, through a resize. *)
Lemma frame_compose (s s1 s' : state) o n :
  (s1 = s \/ (owns_block s o /\ size_of s o <> n /\
       exists v, nth_error (objs s) o = Some (Some v) /\ resized s s1 o v n (Nat.min (olen v) n))) ->
  same_shape s1 s' -> (forall b i, ~ in_window s1 o b i -> cellat s' b i = cellat s1 b i) ->
  frame s s' o.
Proof.
  intros H1 Sh Hf. assert (Hk := frame_value _ _ _ Sh Hf).
  destruct H1 as [->|[Hown [_ [v0 [Hv0 R]]]]].
  - intros o' Ho' _. auto.
  - intros o' Ho' Hmo'. destruct (Hk o' Ho') as [O1 O2].
    destruct (resized_other s s1 o v0 _ _ Hv0 Hown R o' Ho' Hmo') as [F1 F2].
    split; [congruence|]. intros Hno. apply value_ext; [congruence|].
    intros b i Hw. rewrite <- (F2 Hno b i Hw). apply Hf. intros [v2 [off2 [A2 [B2 C2]]]].
    assert (E2 := rs_objs _ _ _ _ _ _ R o). destruct (Nat.eq_dec o o); [|congruence].
    rewrite A2 in E2. injection E2 as ->. simpl in B2. injection B2 as <- <-.
    destruct Hw as [v' [off [W1 [W2 W3]]]].
    assert (Hcell : cellat s (length (blocks s)) i <> None).
    { destruct Hmo' as [Hmo|[lo Hlo]].
      - destruct (mapped_ok _ _ Hmo v' W1) as [_ M2].
        destruct (M2 _ off W2 (i - off)) as [c Hc]; [lia|].
        replace (off + (i - off)) with i in Hc by lia. congruence.
      - apply value_inv in Hlo as [v2 [A3 [L2 C3]]]. rewrite W1 in A3. injection A3 as <-.
        destruct (nth_error lo (i - off)) as [x|] eqn:Ex; [|apply nth_error_None in Ex; lia].
        destruct (C3 _ _ Ex) as [b2 [off2 [D2 E2]]]. rewrite W2 in D2. injection D2 as <- <-.
        replace (off + (i - off)) with i in E2 by lia. congruence. }
    unfold cellat in Hcell. destruct (get_block s (length (blocks s))) eqn:Eb; [|congruence].
    apply get_block_bound in Eb. lia.
Qed.

(** set(e0, e1, ...), element and initializer-list constructors. *)
Lemma assign_elements_l (s : state) o rs xs :
  (size_of s o = length rs /\ mapped s o) \/ (owns_block s o /\ alloc_succeeds s) ->
  Forall2 (fun r x => ref_value s r = Some x /\ ~ ref_inside s r o) rs xs ->
  exists s', assign_elements true o rs s = ROk tt s' /\ value s' o = Some xs /\ frame s s' o.
Proof.
  intros Hsz HF. unfold assign_elements.
  destruct (check_or_resize_ok s o (length rs) EVectorSize Hsz) as [s1 [E1 [R1 Hs1]]].
  rewrite (bindM_ok _ _ _ _ _ E1). destruct R1 as [v [Hv [Hlen Hm]]].
  assert (HF1 : Forall2 (fun r x => ref_value s1 r = Some x /\ ~ ref_inside s1 r o) rs xs).
  { destruct Hs1 as [->|[Hown [_ [v0 [Hv0 R]]]]]; auto.
    clear -HF Hown Hv0 R. revert R. generalize (length rs). intros n R.
    induction HF as [|r x rs xs [A B] HF IH]; constructor; auto.
    eapply ref_resized; eauto. }
  assert (Hlx := Forall2_len _ _ _ HF).
  destruct (mapped_ok _ _ Hm v Hv) as [M1 M2].
  destruct (oaddr v) as [[b off]|] eqn:Ea.
  2:{ assert (rs = []) as -> by (apply length_zero_iff_nil; rewrite <- Hlen; auto).
      destruct xs; [|discriminate]. simpl. exists s1. split; auto. split.
      - apply (value_intro s1 o v); auto. congruence.
      - eapply frame_compose; eauto. apply same_shape_refl. }
  destruct (put_elements_cells s1 o v b off Hv Ea rs xs 0 s1) as [s' [E [Sh Hc]]]; auto.
  - apply same_shape_refl.
  - lia.
  - exists s'. rewrite E. split; auto. split.
    + apply (value_intro s' o v); auto;
        [rewrite (same_shape_obj _ _ _ Sh); auto|congruence| |congruence].
      intros b' off' Eb i x Hx. rewrite Ea in Eb. injection Eb as <- <-. rewrite Hc.
      assert (i < length xs) by (apply nth_error_Some; congruence).
      destruct (Nat.eq_dec b b); [|congruence].
      replace ((off + 0 <=? off + i) && (off + i <? off + 0 + length rs)) with true
        by (symmetry; apply andb_true_iff; split; [apply Nat.leb_le|apply Nat.ltb_lt]; lia).
      replace (off + i - off - 0) with i by lia. now rewrite Hx.
    + eapply frame_compose; eauto. intros b' i' Hw. rewrite Hc.
      destruct (Nat.eq_dec b' b) as [->|]; auto.
      destruct (Nat.leb_spec (off + 0) i'), (Nat.ltb_spec i' (off + 0 + length rs)); simpl; auto.
      exfalso. apply Hw. exists v, off. repeat split; auto; lia.
Qed.

(** Construction from a shorter vector and trailing elements. *)
Lemma assign_parts_l (s : state) o e rs l xs :
  den (value s) e = Some l ->
  (size_of s o = length l + length rs /\ mapped s o) \/ (owns_block s o /\ alloc_succeeds s) ->
  (forall o', In o' (e_objs e) -> o' <> o /\ ~ overlap s o' o) ->
  Forall2 (fun r x => ref_value s r = Some x /\ ~ ref_inside s r o) rs xs ->
  exists s', assign_parts true o e rs s = ROk tt s' /\ value s' o = Some (l ++ xs) /\ frame s s' o.
Proof.
  intros Hd Hsz Hdis HF. unfold assign_parts.
  destruct (built_of_den _ _ _ Hd) as [Hb Hes].
  rewrite (bindM_ok _ _ _ _ _ Hb), (bindM_ok _ _ _ _ _ Hes). rewrite <- Nat2Z.inj_add.
  destruct (check_or_resize_ok s o (length l + length rs) EVectorSize Hsz) as [s1 [E1 [R1 Hs1]]].
  rewrite (bindM_ok _ _ _ _ _ E1). destruct R1 as [v [Hv [Hlen Hm]]].
  assert (HF1 : Forall2 (fun r x => ref_value s1 r = Some x /\ ~ ref_inside s1 r o) rs xs).
  { destruct Hs1 as [->|[Hown [_ [v0 [Hv0 R]]]]]; auto.
    clear -HF Hown Hv0 R. revert R. generalize (length l + length rs). intros n R.
    induction HF as [|r x rs xs [A B] HF IH]; constructor; auto.
    eapply ref_resized; eauto. }
  assert (Hdis1 : forall o', In o' (e_objs e) -> o' <> o /\ ~ overlap s1 o' o).
  { destruct Hs1 as [->|[Hown [_ [v0 [Hv0 R]]]]]; auto. intros o' Hin.
    destruct (Hdis _ Hin) as [D1 D2]. split; auto. eapply overlap_resized; eauto.
    eapply den_mapped; eauto. }
  assert (Hd1 : den (value s1) e = Some l).
  { destruct Hs1 as [->|[Hown [_ [v0 [Hv0 R]]]]]; auto.
    rewrite <- Hd. apply den_ext. intros o' Hin. destruct (Hdis _ Hin) as [D1 D2].
    destruct (resized_other s s1 o v0 _ _ Hv0 Hown R o' D1
                (or_intror (den_mapped _ _ _ Hd _ Hin))) as [F1 F2].
    apply value_ext; auto. }
  assert (Hlx := Forall2_len _ _ _ HF).
  destruct (built_of_den _ _ _ Hd1) as [_ Hes1].
  rewrite (bindM_ok _ _ _ _ _ Hes1). rewrite Nat2Z.id.
  destruct (mapped_ok _ _ Hm v Hv) as [M1 M2].
  destruct (oaddr v) as [[b off]|] eqn:Ea.
  2:{ rewrite M1 in Hlen by auto. destruct l as [|? ?]; [|discriminate].
      destruct rs as [|? ?]; [|discriminate]. destruct xs; [|discriminate].
      cbn [length forM]. rewrite (bindM_ok _ _ s1 tt s1) by reflexivity.
      rewrite (bindM_ok _ _ _ _ _ Hes1). simpl. exists s1. split; auto. split.
      - apply (value_intro s1 o v); auto. congruence.
      - eapply frame_compose; eauto. apply same_shape_refl. }
  assert (Hst : exists s2, forM (length l) 0 (fun i => bindM (e_get e i) (fun x => obj_put o i x)) s1
             = ROk tt s2 /\ same_shape s1 s2 /\
      forall b' i', cellat s2 b' i' =
        if Nat.eq_dec b' b then if (off <=? i') && (i' <? off + length l)
          then option_map Some (nth_error l (i' - off)) else cellat s1 b' i'
        else cellat s1 b' i').
  { destruct l as [|d l0] eqn:El.
    { simpl. exists s1. split; auto. split; [apply same_shape_refl|]. intros b' i'.
      destruct (Nat.eq_dec b' b); auto.
      destruct (Nat.leb_spec off i'), (Nat.ltb_spec i' (off + 0)); simpl; auto; lia. }
    rewrite <- El in *.
    destruct (store_loop s1 o v b off (length l) (fun i => e_get e i) (fun i => nth i l d))
      as [s2 [E2 [Sh2 Hc2]]]; auto.
    - intros i Hi. apply (M2 b off); auto. lia.
    - intros k sk Hk Sh Hc. eapply (get_disjoint s1 sk); eauto.
      + apply nth_error_nth'; auto.
      + intros o' Ho' Hno. apply value_ext; [apply same_shape_obj; auto|].
        intros b' i' Hw. rewrite Hc. destruct (Nat.eq_dec b' b) as [->|]; auto.
        destruct (Nat.leb_spec off i'), (Nat.ltb_spec i' (off + k)); simpl; auto.
        exfalso. apply Hno. exists b, i'. split; auto. exists v, off. repeat split; auto; lia.
    - exists s2. split; auto. split; auto. intros b' i'. rewrite Hc2.
      destruct (Nat.eq_dec b' b); auto.
      destruct (Nat.leb_spec off i'), (Nat.ltb_spec i' (off + length l)); simpl; auto.
      rewrite (nth_error_nth' l d) by lia. reflexivity. }
  destruct Hst as [s2 [E2 [Sh2 Hc2]]].
  rewrite (bindM_ok _ _ _ _ _ E2).
  assert (Hes2 : e_size e s2 = ROk (Z.of_nat (length l)) s2).
  { destruct (den_size _ _ _ Hd1) as [Ha1 [_ Hz1]]. rewrite e_size_ok.
    - f_equal. rewrite <- Hz1. clear -Sh2. destruct Sh2 as [Ho _].
      induction e; simpl; auto; [unfold size_of; now rewrite Ho|lia].
    - clear -Sh2 Ha1. destruct Sh2 as [Ho _]. apply all_alive_iff. rewrite Ho. now apply all_alive_iff. }
  rewrite (bindM_ok _ _ _ _ _ Hes2). rewrite Nat2Z.id.
  destruct (Z.ltb_spec (Z.of_nat (length l)) 0); [lia|].
  destruct (put_elements_cells s1 o v b off Hv Ea rs xs (length l) s2) as [s' [E [Sh Hc]]]; auto.
  - lia.
  - clear -HF1 Hc2 Hv Ea Hlen. revert Hlen. generalize (length rs) as m. intros m Hlen.
    induction HF1 as [|r x rs xs [A B] HF IH]; constructor; auto.
    split; auto. destruct r as [|b' i']; simpl in *; auto. rewrite Hc2.
    destruct (Nat.eq_dec b' b) as [->|]; auto.
    destruct (Nat.leb_spec off i'), (Nat.ltb_spec i' (off + length l)); simpl; auto.
    exfalso. apply B. exists v, off. repeat split; auto; lia.
  - exists s'. rewrite E. split; auto. split.
    + apply (value_intro s' o v); auto;
        [rewrite (same_shape_obj _ _ _ Sh); auto|rewrite app_length; congruence| |congruence].
      intros b' off' Eb i x Hx. rewrite Ea in Eb. injection Eb as <- <-. rewrite Hc, Hc2.
      assert (i < length (l ++ xs)) as Hi by (apply nth_error_Some; congruence).
      rewrite app_length in Hi. destruct (Nat.eq_dec b b); [|congruence].
      destruct (Nat.leb_spec (off + length l) (off + i)), (Nat.leb_spec off (off + i)),
        (Nat.ltb_spec (off + i) (off + length l + length rs)),
        (Nat.ltb_spec (off + i) (off + length l)); simpl; try lia.
      * rewrite nth_error_app2 in Hx by lia.
        replace (off + i - off - length l) with (i - length l) by lia. now rewrite Hx.
      * rewrite nth_error_app1 in Hx by lia.
        replace (off + i - off) with i by lia. now rewrite Hx.
    + eapply frame_compose; eauto. intros b' i' Hw. rewrite Hc, Hc2.
      destruct (Nat.eq_dec b' b) as [->|]; auto.
      destruct (Nat.leb_spec (off + length l) i'), (Nat.leb_spec off i'),
        (Nat.ltb_spec i' (off + length l + length rs)),
        (Nat.ltb_spec i' (off + length l)); simpl; auto;
        exfalso; apply Hw; exists v, off; repeat split; auto; lia.
Qed.

(** ** resize: kept prefix *)
Lemma window_cells_iff (s : state) b n : forall off l,
  window_cells s b off n = Some l <->
  length l = n /\ forall i c, nth_error l i = Some c -> cellat s b (off + i) = Some c.
Proof.
  induction n as [|n IH]; intros off l; simpl.
  - split.
    + intros H; injection H as <-. split; auto. intros [|i] x; discriminate.
    + intros [H _]. destruct l; [auto|discriminate].
  - split.
    + destruct (cellat s b off) as [x|] eqn:Ec; try discriminate.
      destruct (window_cells s b (S off) n) as [l'|] eqn:Er; [|discriminate].
      intros H; injection H as <-. apply IH in Er as [A B]. split; [simpl; congruence|].
      intros [|i] y; simpl.
      * intros H; injection H as <-. now rewrite Nat.add_0_r.
      * intros H. replace (off + S i) with (S off + i) by lia. auto.
    + intros [A B]. destruct l as [|x l]; [discriminate|]. simpl in A.
      assert (E0 := B 0 x eq_refl). rewrite Nat.add_0_r in E0. rewrite E0.
      assert (E1 : window_cells s b (S off) n = Some l).
      { apply IH. split; [lia|]. intros i y H. replace (S off + i) with (off + S i) by lia. auto. }
      now rewrite E1.
Qed.

Lemma resize_l (s : state) o n cs :
  owns_block s o -> alloc_succeeds s -> contents s o = Some cs ->
  exists s', resize true o (Z.of_nat n) s = ROk tt s' /\
    contents s' o = Some (firstn n cs ++ repeat None (n - length cs)) /\
    owns_block s' o /\ frame s s' o.
Proof.
  intros Hown Ha Hcs. assert (Hown' := Hown). destruct Hown' as [v [Hv [Hk Hb]]].
  assert (Hcv : olen v = length cs /\
     (forall b off, oaddr v = Some (b, off) ->
        forall i c, nth_error cs i = Some c -> cellat s b (off + i) = Some c)).
  { unfold contents in Hcs. rewrite Hv in Hcs. destruct (oaddr v) as [[b off]|] eqn:Ea.
    - apply window_cells_iff in Hcs as [A B]. split; auto. intros ? ? E; injection E as <- <-. auto.
    - destruct (olen v); [|discriminate]. injection Hcs as <-. split; auto. congruence. }
  destruct Hcv as [Hlc Hcells].
  destruct (Nat.eq_dec n (olen v)) as [->|Hn].
  - exists s. rewrite (resize_same s o v) by auto. split; auto. split; [|split; auto].
    + rewrite Hlc, firstn_all, Nat.sub_diag, app_nil_r. auto.
    + intros o' _ _; auto.
  - destruct (resize_spec s o v n Hv (owned_of_owns _ _ _ Hown Hv) Hn) as [[r [Hr _]]|[_ [s' [E R]]]].
    { unfold alloc_succeeds in Ha. rewrite Hr in Ha. discriminate. }
    exists s'. split; auto.
    assert (Ho' := rs_objs _ _ _ _ _ _ R o). destruct (Nat.eq_dec o o); [|congruence].
    split; [|split].
    + unfold contents. rewrite Ho'. simpl. apply window_cells_iff. split.
      { rewrite app_length, firstn_length, repeat_length. lia. }
      intros i c Hc. simpl. destruct (Nat.lt_ge_cases i (Nat.min (olen v) n)) as [Hi|Hi].
      * rewrite nth_error_app1 in Hc by (rewrite firstn_length; lia).
        rewrite nth_error_firstn' in Hc by lia.
        destruct (oaddr v) as [[b off]|] eqn:Ea; [|rewrite Hb in Hi; lia].
        rewrite (rs_keep _ _ _ _ _ _ R i Hi b off Ea). apply Hcells; auto.
      * rewrite nth_error_app2 in Hc by (rewrite firstn_length; lia).
        rewrite firstn_length in Hc.
        assert (Hi2 : i - Nat.min n (length cs) < n - length cs).
        { rewrite <- (repeat_length (@None T) (n - length cs)). apply nth_error_Some.
          unfold cell in *. congruence. }
        rewrite (nth_error_repeat (None : cell T)) in Hc by auto. injection Hc as <-.
        apply (rs_rest _ _ _ _ _ _ R). lia.
    + eexists. split; [exact Ho'|]. simpl. split; auto. split; auto.
      assert (Hnew := rs_new _ _ _ _ _ _ R). unfold bsize in Hnew.
      destruct (get_block s' (length (blocks s))); [|discriminate]. simpl in Hnew. injection Hnew as Hnew. eauto.
    + intros o' Ho'' Hm. destruct (resized_other s s' o v _ _ Hv Hown R o' Ho'' Hm) as [F1 F2].
      split; auto. intros Hno. apply value_ext; auto.
Qed.

Lemma resize_nomem_l (s : state) o n v r :
  nth_error (objs s) o = Some (Some v) -> n <> olen v -> sched s = false :: r -> forall tr,
  resize tr o (Z.of_nat n) s = RThrow EBadAlloc (St (blocks s) (objs s) r).
Proof.
  intros Hv Hn Hs tr. unfold resize.
  rewrite (bindM_ok _ _ _ tt s) by (apply requireM_true; apply Z.leb_le; lia).
  rewrite (bindM_ok _ _ _ v s) by (apply get_obj_ok; auto).
  destruct (Z.eqb_spec (Z.of_nat n) (Z.of_nat (olen v))); [lia|].
  apply bindM_throw. unfold alloc. now rewrite Hs.
Qed.

(** ** Size checks of expressions and assignments *)
Lemma shape_of_spec (s : state) e :
  match shape_of (fun o => Z.of_nat (size_of s o)) e with
  | Some n => well_sized s e /\ esz s e = n
  | None => ~ well_sized s e
  end.
Proof.
  induction e; simpl; auto.
  - destruct (shape_of _ e1), (shape_of _ e2); try tauto.
    destruct (Z.eqb_spec z z0).
    + subst. intuition congruence.
    + intros [A [B C]]. destruct IHe1, IHe2. congruence.
  - destruct (shape_of _ e1), (shape_of _ e2); try tauto.
    destruct (Z.eqb_spec z 3), (Z.eqb_spec z0 3); simpl; try (intros [A [B [C D]]]; destruct IHe1, IHe2; congruence).
    subst. intuition congruence.
  - destruct (shape_of _ e); auto. destruct IHe; split; auto. lia.
Qed.

Lemma assign_throws_l (s : state) o e :
  all_alive s e -> (exists v, nth_error (objs s) o = Some (Some v)) ->
  (shape_of (fun o => Z.of_nat (size_of s o)) e = None \/
   (exists v n, nth_error (objs s) o = Some (Some v) /\ okind v <> KAllocated /\
      shape_of (fun o => Z.of_nat (size_of s o)) e = Some n /\ n <> Z.of_nat (olen v))) ->
  forall tr, exists ex, (ex = EIncompatibleVectorSize \/ ex = EVectorSize) /\
    assign tr o e s = RThrow ex s /\ forall f, compound tr f o e s = RThrow ex s.
Proof.
  intros Ha [v Hv] H tr. assert (Hsh := shape_of_spec s e).
  destruct (e_build_spec s e Ha) as [[Hw Hb]|[Hw Hb]].
  - destruct H as [H|(v' & n & Hv' & Hk & Hn & Hne)]; [rewrite H in Hsh; contradiction|].
    rewrite Hv in Hv'. injection Hv' as <-. rewrite Hn in Hsh. destruct Hsh as [_ Hsz].
    exists EIncompatibleVectorSize. split; auto.
    assert (Hcr : check_or_resize tr o n EIncompatibleVectorSize s = RThrow EIncompatibleVectorSize s).
    { unfold check_or_resize. rewrite (bindM_ok _ _ _ v s) by (apply get_obj_ok; auto).
      destruct (okind v); try congruence; simpl; unfold requireM;
        (destruct (Z.eqb_spec (Z.of_nat (olen v)) n); [congruence|reflexivity]). }
    unfold assign, compound. split; [|intros f];
      rewrite (bindM_ok _ _ _ _ _ Hb), (bindM_ok _ _ _ _ _ (e_size_ok _ _ Ha)), Hsz;
      apply bindM_throw; exact Hcr.
  - unfold assign, compound.
    destruct Hb as [Hb|Hb]; [exists EIncompatibleVectorSize|exists EVectorSize]; split; auto;
      split; [|intros f| |intros f]; now apply bindM_throw.
Qed.

(** Compound assignment to a dynamic vector of another size. *)
Lemma compound_longer_l (s : state) f o e l2 :
  owns_block s o -> alloc_succeeds s -> den (value s) e = Some l2 ->
  (forall o', In o' (e_objs e) -> o' <> o /\ ~ overlap s o' o) ->
  (exists l1, value s o = Some l1 /\ length l1 < length l2) ->
  compound true f o e s = RUB UBIndet.
Proof.
  intros Hown Ha Hd Hdis [l1 [V1 Hlt]].
  destruct (built_of_den _ _ _ Hd) as [Hb Hes].
  unfold compound. rewrite (bindM_ok _ _ _ _ _ Hb), (bindM_ok _ _ _ _ _ Hes).
  destruct (value_inv _ _ _ V1) as [v [Hv [Hl HC]]].
  unfold check_or_resize.
  assert (Hk : okind v = KAllocated).
  { destruct Hown as [v' [A [B _]]]. rewrite Hv in A. injection A as <-. auto. }
  destruct (resize_spec s o v (length l2) Hv (owned_of_owns _ _ _ Hown Hv)) as [[r [Hr _]]|[_ [s1 [E R]]]].
  { lia. } { unfold alloc_succeeds in Ha. rewrite Hr in Ha. discriminate. }
  rewrite (bindM_ok _ _ s tt s1).
  2:{ rewrite (bindM_ok _ _ _ v s) by (apply get_obj_ok; auto). rewrite Hk. exact E. }
  assert (Ho' := rs_objs _ _ _ _ _ _ R o). destruct (Nat.eq_dec o o); [|congruence].
  rewrite (bindM_ok _ _ _ _ s1 (get_obj_ok _ _ _ Ho')). simpl.
  set (nb := length (blocks s)) in *.
  set (v1 := VObj (okind v) (Some (nb, 0)) (length l2)) in *.
  assert (Hd1 : den (value s1) e = Some l2).
  { rewrite <- Hd. apply den_ext. intros o' Hin. destruct (Hdis _ Hin) as [D1 D2].
    destruct (resized_other s s1 o v _ _ Hv Hown R o' D1
                (or_intror (den_mapped _ _ _ Hd _ Hin))) as [F1 F2].
    apply value_ext; auto. }
  assert (Hdis1 : forall o', In o' (e_objs e) -> o' <> o /\ ~ overlap s1 o' o).
  { intros o' Hin. destruct (Hdis _ Hin) as [D1 D2]. split; auto. eapply (overlap_resized s s1 o v); eauto.
    eapply den_mapped; eauto. }
  set (n1 := length l1) in *.
  (* the first n1 iterations succeed, iteration n1 reads an indeterminate element *)
  set (body := fun i => bindM (obj_get o i) (fun x => bindM (e_get e i) (fun y => obj_put o i (f x y)))).
  destruct (forM_inv (fun k sk => same_shape s1 sk /\
       (forall b i, ~ in_window s1 o b i -> cellat sk b i = cellat s1 b i) /\
       (forall i, k <= i < length l2 -> cellat sk nb i = cellat s1 nb i))
     body n1 0 s1) as [s2 [E2 [Sh2 [F2 C2]]]].
  - split; [apply same_shape_refl|]. auto.
  - intros k sk Hk' [Sh [F C]]. simpl in Hk'. unfold body.
    destruct (nth_error l1 k) as [x|] eqn:Ex; [|apply nth_error_None in Ex; lia].
    assert (Hx : obj_get o k sk = ROk x sk).
    { eapply (obj_get_ok sk o v1 nb 0); auto.
      - rewrite (same_shape_obj _ _ _ Sh); auto.
      - simpl. rewrite C by lia.
        destruct (HC _ _ Ex) as [b2 [off2 [D2 E2]]].
        assert (Hkp := rs_keep _ _ _ _ _ _ R k ltac:(lia) b2 off2 D2). fold nb in Hkp. congruence. }
    rewrite (bindM_ok _ _ _ _ _ Hx).
    destruct (nth_error l2 k) as [y|] eqn:Ey; [|apply nth_error_None in Ey; lia].
    assert (Hy : e_get e k sk = ROk y sk).
    { eapply (get_disjoint s1 sk); eauto. intros o' Ho2 Hno.
      apply (frame_value s1 sk o Sh F); auto. }
    rewrite (bindM_ok _ _ _ _ _ Hy).
    destruct (same_shape_cellat s1 sk nb (0 + k) Sh) as [c Hc].
    { apply cellat_bsize. exists (length l2). split; [apply (rs_new _ _ _ _ _ _ R)|lia]. }
    destruct (obj_put_ok sk o v1 nb 0 k (f x y) c) as [s2 [E2 [Sh2 Hc2]]]; auto.
    { rewrite (same_shape_obj _ _ _ Sh); auto. }
    exists s2. split; auto. split; [eapply same_shape_trans; eauto|]. split.
    + intros b i Hw. rewrite Hc2. destruct (Nat.eq_dec b nb) as [->|]; auto.
      destruct (Nat.eq_dec i (0 + k)) as [->|]; auto.
      exfalso. apply Hw. exists v1, 0. simpl. repeat split; auto; lia.
    + intros i Hi. rewrite Hc2. destruct (Nat.eq_dec nb nb); [|congruence].
      destruct (Nat.eq_dec i (0 + k)); [lia|]. apply C; lia.
  - replace (length l2) with (n1 + (length l2 - n1)) by lia.
    assert (Happ : forall m k j sx, forM (m + k) j body sx = bindM (forM m j body) (fun _ => forM k (j + m) body) sx).
    { clear. induction m as [|m IH]; intros k j sx; simpl.
      - unfold bindM, ret. now rewrite Nat.add_0_r.
      - unfold bindM at 1. unfold bindM at 1. unfold bindM at 1. destruct (body j sx); auto.
        rewrite IH. unfold bindM. replace (S j + m) with (j + S m) by lia. reflexivity. }
    rewrite Happ. rewrite (bindM_ok _ _ _ _ _ E2).
    destruct (length l2 - n1) as [|m] eqn:Em; [lia|]. cbn [forM].
    apply bindM_ub. unfold body. apply bindM_ub.
    unfold obj_get. rewrite (bindM_ok _ _ _ v1 s2).
    2:{ apply get_obj_ok. rewrite (same_shape_obj _ _ _ Sh2). auto. }
    simpl. unfold rd. rewrite (bindM_ok _ _ _ None s2); [reflexivity|].
    apply rd_cell_ok. rewrite C2 by lia. apply (rs_rest _ _ _ _ _ _ R). lia.
Qed.

End HeapParts.
