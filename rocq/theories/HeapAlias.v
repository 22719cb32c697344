(** What aliased assignments compute: overlapping windows, cross product into an
    operand. *)
From Coq Require Import List ZArith Bool Arith Lia.
From Verif Require Import Base BaseFacts HeapModel HeapSpec HeapFacts HeapProofs HeapAssign HeapParts.
Import ListNotations.

Section HeapAlias.
Context {T : Type}.
Notation state := (state T).
Notation vexpr := (vexpr T).
Notation M := (M T).

Lemma check_same_size (s : state) o v n ex : nth_error (objs s) o = Some (Some v) -> olen v = n ->
  check_or_resize true o (Z.of_nat n) ex s = ROk tt s.
Proof.
  intros Hv <-. unfold check_or_resize. rewrite (bindM_ok _ _ _ v s) by (apply get_obj_ok; auto).
  destruct (resizable (okind v)); [apply resize_same; auto|]. apply requireM_true, Z.eqb_refl.
Qed.

(** Copy between windows of one block, source starting d > 0 cells below the
    target: the first d values repeat. *)
Lemma copy_overlap_l (s : state) o o' v v' b off d l dflt :
  nth_error (objs s) o = Some (Some v) -> nth_error (objs s) o' = Some (Some v') ->
  oaddr v' = Some (b, off) -> oaddr v = Some (b, off + d) -> 0 < d -> d <= length l ->
  value s o' = Some l -> olen v = length l -> mapped s o ->
  exists s', assign true o (EObj o') s = ROk tt s' /\
    value s' o = Some (map (fun i => nth (i mod d) l dflt) (seq 0 (length l))).
Proof.
  intros Hv Hv' Ha' Ha Hd Hdl Hval Hlen Hm.
  destruct (built_of_den s (EObj o') l Hval) as [Hb Hes].
  unfold assign. rewrite (bindM_ok _ _ _ _ _ Hb), (bindM_ok _ _ _ _ _ Hes).
  rewrite (bindM_ok _ _ _ _ _ (check_same_size s o v (length l) _ Hv Hlen)).
  rewrite (bindM_ok _ _ _ v s) by (apply get_obj_ok; auto). rewrite Hlen.
  destruct (mapped_ok _ _ Hm v Hv) as [M1 M2].
  destruct (value_inv _ _ _ Hval) as [v2 [Hv2 [Hl2 HC]]]. rewrite Hv' in Hv2. injection Hv2 as <-.
  set (vals := fun i => nth (i mod d) l dflt).
  destruct (store_loop s o v b (off + d) (length l) (fun i => e_get (EObj o') i) vals) as [s' [E [Sh Hc]]]; auto.
  - intros i Hi. apply (M2 b (off + d)); auto. lia.
  - intros k sk Hk Sh Hc. cbn [e_get]. apply (obj_get_ok sk o' v' b off); auto.
    + rewrite (same_shape_obj _ _ _ Sh). auto.
    + rewrite Hc. destruct (Nat.eq_dec b b); [|congruence].
      destruct (Nat.leb_spec (off + d) (off + k)).
      * destruct (Nat.ltb_spec (off + k) (off + d + k)); [|lia]. simpl.
        unfold vals. replace (off + k - (off + d)) with (k - d) by lia.
        replace (k mod d) with ((k - d) mod d); auto.
        rewrite <- (Nat.mod_add (k - d) 1 d) by lia. f_equal. lia.
      * simpl. assert (Hkl : k < length l) by lia. assert (Ek : nth_error l k = Some (nth k l dflt)) by (apply nth_error_nth'; auto).
        destruct (HC _ _ Ek) as [b2 [off2 [D2 E2]]]. rewrite Ha' in D2. injection D2 as <- <-.
        rewrite E2. unfold vals. rewrite Nat.mod_small by lia. auto.
  - exists s'. split; auto. apply (value_intro s' o v); auto.
    + rewrite (same_shape_obj _ _ _ Sh); auto.
    + rewrite map_length, seq_length. auto.
    + intros b' off' Eb i x Hx. rewrite Ha in Eb. injection Eb as <- <-.
      rewrite nth_error_map in Hx. destruct (nth_error (seq 0 (length l)) i) as [j|] eqn:Ej; [|discriminate].
      assert (Hi : i < length l).
      { rewrite <- (seq_length (length l) 0). apply nth_error_Some. congruence. }
      assert (j = i) as ->.
      { rewrite (nth_error_nth' _ 0) in Ej by (rewrite seq_length; auto). injection Ej as <-.
        rewrite seq_nth; auto. }
      injection Hx as <-. rewrite Hc. destruct (Nat.eq_dec b b); [|congruence].
      replace ((off + d <=? off + d + i) && (off + d + i <? off + d + length l)) with true
        by (symmetry; apply andb_true_iff; split; [apply Nat.leb_le|apply Nat.ltb_lt]; lia).
      unfold vals. repeat f_equal. lia.
    + congruence.
Qed.

(** v = cross(v, w): the elements are overwritten one after the other. *)
Lemma cross_self_l (s : state) m d o o' v v' b off b' off' a0 a1 a2 c0 c1 c2 :
  nth_error (objs s) o = Some (Some v) -> nth_error (objs s) o' = Some (Some v') ->
  oaddr v = Some (b, off) -> oaddr v' = Some (b', off') -> b <> b' ->
  value s o = Some [a0; a1; a2] -> value s o' = Some [c0; c1; c2] ->
  let r0 := d (m a1 c2) (m a2 c1) in
  let r1 := d (m a2 c0) (m r0 c2) in
  let r2 := d (m r0 c1) (m r1 c0) in
  exists s', assign true o (ECross m d (EObj o) (EObj o')) s = ROk tt s' /\
    value s' o = Some [r0; r1; r2].
Proof.
  intros Hv Hv' Ha Ha' Hbb V V' r0 r1 r2.
  assert (Hd : den (value s) (ECross m d (EObj o) (EObj o')) =
            Some [d (m a1 c2) (m a2 c1); d (m a2 c0) (m a0 c2); d (m a0 c1) (m a1 c0)]).
  { simpl. now rewrite V, V'. }
  destruct (built_of_den _ _ _ Hd) as [Hb Hes].
  assert (Hm := mapped_of_value _ _ _ V).
  destruct (value_inv _ _ _ V) as [v2 [Hv2 [Hl HC]]]. rewrite Hv in Hv2. injection Hv2 as <-.
  destruct (value_inv _ _ _ V') as [v2 [Hv2 [Hl' HC']]]. rewrite Hv' in Hv2. injection Hv2 as <-.
  unfold assign. rewrite (bindM_ok _ _ _ _ _ Hb), (bindM_ok _ _ _ _ _ Hes).
  rewrite (bindM_ok _ _ _ _ _ (check_same_size s o v 3 _ Hv Hl)).
  rewrite (bindM_ok _ _ _ v s) by (apply get_obj_ok; auto). rewrite Hl. cbn [length].
  destruct (mapped_ok _ _ Hm v Hv) as [_ M2]. cbn [length] in Hl, Hl'.
  set (vals := fun i => nth i [r0; r1; r2] r0).
  destruct (store_loop s o v b off 3 (fun i => e_get (ECross m d (EObj o) (EObj o')) i) vals) as [s' [E [Sh Hc]]]; auto.
  - intros i Hi. apply (M2 b off); auto. lia.
  - intros k sk Hk Sh Hc.
    assert (G1 : forall j x, nth_error [a0; a1; a2] j = Some x -> k <= j -> obj_get o j sk = ROk x sk).
    { intros j x Hx Hj. apply (obj_get_ok sk o v b off); auto; [rewrite (same_shape_obj _ _ _ Sh); auto|].
      rewrite Hc. destruct (Nat.eq_dec b b); [|congruence].
      destruct (Nat.ltb_spec (off + j) (off + k)); [lia|]. rewrite andb_false_r.
      destruct (HC _ _ Hx) as [bx [offx [D1 D2]]]. rewrite Ha in D1. injection D1 as <- <-. auto. }
    assert (G1' : forall j, j < k -> obj_get o j sk = ROk (vals j) sk).
    { intros j Hj. apply (obj_get_ok sk o v b off); auto; [rewrite (same_shape_obj _ _ _ Sh); auto|].
      rewrite Hc. destruct (Nat.eq_dec b b); [|congruence].
      replace ((off <=? off + j) && (off + j <? off + k)) with true
        by (symmetry; apply andb_true_iff; split; [apply Nat.leb_le|apply Nat.ltb_lt]; lia).
      repeat f_equal. lia. }
    assert (G2 : forall j x, nth_error [c0; c1; c2] j = Some x -> obj_get o' j sk = ROk x sk).
    { intros j x Hx. apply (obj_get_ok sk o' v' b' off'); auto; [rewrite (same_shape_obj _ _ _ Sh); auto|].
      rewrite Hc. destruct (Nat.eq_dec b' b); [congruence|].
      destruct (HC' _ _ Hx) as [bx [offx [D1 D2]]]. rewrite Ha' in D1. injection D1 as <- <-. auto. }
    cbn [e_get]. cbv zeta.
    destruct k as [|[|[|k]]]; [..|lia]; cbn [Nat.add Nat.modulo Nat.divmod Nat.sub snd].
    + rewrite (bindM_ok _ _ _ _ _ (G1 1 a1 eq_refl ltac:(lia))), (bindM_ok _ _ _ _ _ (G2 2 c2 eq_refl)).
      rewrite (bindM_ok _ _ _ _ _ (G1 2 a2 eq_refl ltac:(lia))), (bindM_ok _ _ _ _ _ (G2 1 c1 eq_refl)). reflexivity.
    + rewrite (bindM_ok _ _ _ _ _ (G1 2 a2 eq_refl ltac:(lia))), (bindM_ok _ _ _ _ _ (G2 0 c0 eq_refl)).
      rewrite (bindM_ok _ _ _ _ _ (G1' 0 ltac:(lia))), (bindM_ok _ _ _ _ _ (G2 2 c2 eq_refl)). reflexivity.
    + rewrite (bindM_ok _ _ _ _ _ (G1' 0 ltac:(lia))), (bindM_ok _ _ _ _ _ (G2 1 c1 eq_refl)).
      rewrite (bindM_ok _ _ _ _ _ (G1' 1 ltac:(lia))), (bindM_ok _ _ _ _ _ (G2 0 c0 eq_refl)). reflexivity.
  - exists s'. split; auto. apply (value_intro s' o v); auto.
    + rewrite (same_shape_obj _ _ _ Sh); auto.
    + intros bx offx Eb i x Hx. rewrite Ha in Eb. injection Eb as <- <-.
      assert (Hi : i < 3) by (change 3 with (length [r0; r1; r2]); apply nth_error_Some; congruence).
      rewrite Hc. destruct (Nat.eq_dec b b); [|congruence].
      replace ((off <=? off + i) && (off + i <? off + 3)) with true
        by (symmetry; apply andb_true_iff; split; [apply Nat.leb_le|apply Nat.ltb_lt]; lia).
      replace (off + i - off) with i by lia. unfold vals. rewrite (nth_error_nth _ _ r0 Hx). auto.
    + congruence.
Qed.

(** += / -= of a dynamic vector with a shorter operand: the vector is cut to the
    size of the operand and no error is reported. *)
Lemma compound_shorter_l (s : state) f o e l1 l2 l :
  elementwise e -> owns_block s o -> alloc_succeeds s ->
  value s o = Some l1 -> den (value s) e = Some l2 -> length l2 <= length l1 ->
  zip_with f (firstn (length l2) l1) l2 = Some l ->
  (forall o', In o' (e_objs e) -> o' <> o /\ ~ overlap s o' o) ->
  exists s', compound true f o e s = ROk tt s' /\ value s' o = Some l.
Proof.
  intros He Hown Hal V1 Hd Hle Hz Hdis.
  destruct (value_inv _ _ _ V1) as [v [Hv [Hl HC]]].
  destruct (built_of_den _ _ _ Hd) as [Hb Hes].
  assert (Hk : okind v = KAllocated).
  { destruct Hown as [v' [A [B _]]]. rewrite Hv in A. injection A as <-. auto. }
  destruct (Nat.eq_dec (length l2) (length l1)) as [Heq|Hne].
  { destruct (compound_l s f o e l) as [s' [E [V _]]]; auto.
    - simpl. rewrite V1, Hd. rewrite Heq, firstn_all in Hz. auto.
    - intros o' Ho' [Hov _]. destruct (Hdis o' Ho') as [_ N]. auto.
    - eauto. }
  destruct (resize_spec s o v (length l2) Hv (owned_of_owns _ _ _ Hown Hv)) as [[r [Hr _]]|[_ [s1 [E R]]]].
  { lia. } { unfold alloc_succeeds in Hal. rewrite Hr in Hal. discriminate. }
  assert (Ho' := rs_objs _ _ _ _ _ _ R o). destruct (Nat.eq_dec o o); [|congruence].
  assert (Hv1 : value s1 o = Some (firstn (length l2) l1)).
  { eapply value_intro; eauto.
    - rewrite firstn_length. simpl. lia.
    - simpl. intros b' off' Eb i x Hx. injection Eb as <- <-.
      assert (Hi : i < length l2).
      { rewrite <- (firstn_length_le l1 Hle). apply nth_error_Some. congruence. }
      assert (Hx' : nth_error l1 i = Some x).
      { rewrite <- Hx. symmetry.
        rewrite <- (firstn_skipn (length l2) l1) at 2. rewrite nth_error_app1; auto.
        rewrite firstn_length. lia. }
      destruct (HC _ _ Hx') as [b [off [Ha Hc]]]. simpl.
      rewrite (rs_keep _ _ _ _ _ _ R i ltac:(lia) b off Ha). auto.
    - simpl. congruence. }
  assert (Hd1 : den (value s1) e = Some l2).
  { rewrite <- Hd. apply den_ext. intros o' Hin. destruct (Hdis _ Hin) as [D1 D2].
    destruct (resized_other s s1 o v _ _ Hv Hown R o' D1
                (or_intror (den_mapped _ _ _ Hd _ Hin))) as [F1 F2].
    apply value_ext; auto. }
  assert (Hdis1 : forall o', In o' (e_objs e) -> o' <> o /\ ~ overlap s1 o' o).
  { intros o' Hin. destruct (Hdis _ Hin) as [D1 D2]. split; auto. eapply (overlap_resized s s1 o v); eauto.
    eapply den_mapped; eauto. }
  destruct (compound_l s1 f o e l) as [s' [E' [V' _]]]; auto.
  { simpl. rewrite Hv1, Hd1. auto. }
  { intros o' Hin [Hov _]. destruct (Hdis1 o' Hin) as [_ N]. auto. }
  exists s'. split; auto. rewrite <- E'. unfold compound.
  destruct (built_of_den _ _ _ Hd1) as [Hb1 Hes1].
  rewrite (bindM_ok _ _ _ _ _ Hb), (bindM_ok _ _ _ _ _ Hes).
  rewrite (bindM_ok _ _ _ _ _ Hb1), (bindM_ok _ _ _ _ _ Hes1).
  rewrite (bindM_ok _ _ s1 tt s1) by (eapply check_same_size; eauto; reflexivity).
  rewrite (bindM_ok _ _ s tt s1); auto.
  unfold check_or_resize. rewrite (bindM_ok _ _ _ v s) by (apply get_obj_ok; auto). rewrite Hk. exact E.
Qed.

(** minimize / maximize check the size of every vector, dynamic ones included. *)
Lemma pairwise_throws_l (s : state) f o e v n :
  nth_error (objs s) o = Some (Some v) -> e_build e s = ROk tt s -> e_size e s = ROk n s ->
  n <> Z.of_nat (olen v) -> pairwise f o e s = RThrow EIncompatibleVectorSize s.
Proof.
  intros Hv Hb Hes Hn. unfold pairwise. rewrite (bindM_ok _ _ _ _ _ Hb).
  rewrite (bindM_ok _ _ _ v s) by (apply get_obj_ok; auto). rewrite (bindM_ok _ _ _ _ _ Hes).
  apply bindM_throw. destruct (Z.eqb_spec (Z.of_nat (olen v)) n); [congruence|reflexivity].
Qed.

(** Assignment without a change of size writes exactly the cells of the target,
    whatever its storage. *)
Lemma write_through_l (s : state) o e l :
  elementwise e -> den (value s) e = Some l -> size_of s o = length l -> mapped s o ->
  (forall o', In o' (e_objs e) -> ~ overlaps_from_below s o' o) ->
  exists s', assign true o e s = ROk tt s' /\ value s' o = Some l /\ objs s' = objs s /\
    forall b i, ~ in_window s o b i -> cellat s' b i = cellat s b i.
Proof.
  intros He Hd Hsz Hm Hlf. destruct (built_of_den _ _ _ Hd) as [Hb Hes].
  destruct Hm as [v [Hv Hv']]. assert (Hm : mapped s o) by (exists v; auto).
  rewrite (size_of_eq _ _ _ Hv) in Hsz.
  unfold assign. rewrite (bindM_ok _ _ _ _ _ Hb), (bindM_ok _ _ _ _ _ Hes).
  rewrite (bindM_ok _ _ _ _ _ (check_same_size s o v (length l) _ Hv Hsz)).
  rewrite (bindM_ok _ _ _ v s) by (apply get_obj_ok; auto). rewrite Hsz.
  destruct (store_value s o l (fun i => e_get e i)) as [s' [E [Sh [Hval Hf]]]].
  - exists v; auto.
  - intros k x sk Hx Sh H1 H2. eapply get_elementwise; eauto. rewrite (size_of_eq _ _ _ Hv). auto.
  - exists s'. split; auto. split; auto. split; auto. destruct Sh as [H _]. auto.
Qed.

End HeapAlias.
