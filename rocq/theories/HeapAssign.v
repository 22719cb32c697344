(** Assignment and in-place operations against the specification of HeapSpec.v. *)
From Coq Require Import List ZArith Bool Arith Lia.
From Verif Require Import Base BaseFacts HeapModel HeapSpec HeapFacts HeapProofs.
Import ListNotations.

Section HeapAssign.
Context {T : Type}.
Notation state := (state T).
Notation vexpr := (vexpr T).
Notation M := (M T).

(** ** Windows and values *)
Lemma read_window_iff (s : state) b n : forall off l,
  read_window s b off n = Some l <->
  length l = n /\ forall i x, nth_error l i = Some x -> cellat s b (off + i) = Some (Some x).
Proof.
  induction n as [|n IH]; intros off l; simpl.
  - split.
    + intros H; injection H as <-. split; auto. intros [|i] x; discriminate.
    + intros [H _]. destruct l; [auto|discriminate].
  - split.
    + destruct (cellat s b off) as [[x|]|] eqn:Ec; try discriminate.
      destruct (read_window s b (S off) n) as [l'|] eqn:Er; [|discriminate].
      intros H; injection H as <-. apply IH in Er as [A B]. split; [simpl; congruence|].
      intros [|i] y; simpl.
      * intros H; injection H as <-. now rewrite Nat.add_0_r.
      * intros H. replace (off + S i) with (S off + i) by lia. auto.
    + intros [A B]. destruct l as [|x l]; [discriminate|]. simpl in A.
      assert (E0 := B 0 x eq_refl). rewrite Nat.add_0_r in E0. rewrite E0.
      assert (E1 : read_window s b (S off) n = Some l).
      { apply IH. split; [lia|]. intros i y H. replace (S off + i) with (off + S i) by lia. auto. }
      now rewrite E1.
Qed.

Lemma read_window_ext (s s' : state) b off n :
  (forall i, i < n -> cellat s' b (off + i) = cellat s b (off + i)) ->
  read_window s' b off n = read_window s b off n.
Proof.
  revert off; induction n as [|n IH]; intros off H; simpl; auto.
  assert (E := H 0). rewrite Nat.add_0_r in E. rewrite E by lia.
  rewrite IH; auto. intros i Hi. replace (S off + i) with (off + S i) by lia. apply H; lia.
Qed.

Lemma value_inv (s : state) o l : value s o = Some l -> exists v,
  nth_error (objs s) o = Some (Some v) /\ olen v = length l /\
  forall i x, nth_error l i = Some x -> exists b off,
    oaddr v = Some (b, off) /\ cellat s b (off + i) = Some (Some x).
Proof.
  unfold value. destruct (nth_error (objs s) o) as [[v|]|] eqn:E; try discriminate.
  intros H. exists v. split; auto.
  destruct (oaddr v) as [[b off]|] eqn:Ea.
  - apply read_window_iff in H as [A B]. split; auto. intros i x Hx. exists b, off. auto.
  - destruct (olen v); [|discriminate]. injection H as <-. split; auto. intros [|i] x; discriminate.
Qed.

Lemma value_ext (s s' : state) o : nth_error (objs s') o = nth_error (objs s) o ->
  (forall b i, in_window s o b i -> cellat s' b i = cellat s b i) -> value s' o = value s o.
Proof.
  intros Ho Hc. unfold value. rewrite Ho.
  destruct (nth_error (objs s) o) as [[v|]|] eqn:E; auto.
  destruct (oaddr v) as [[b off]|] eqn:Ea; auto.
  apply read_window_ext. intros i Hi. apply Hc. exists v, off. split; [auto|]. split; [auto|lia].
Qed.

Lemma value_intro (s : state) o v l : nth_error (objs s) o = Some (Some v) -> olen v = length l ->
  (forall b off, oaddr v = Some (b, off) -> forall i x, nth_error l i = Some x ->
      cellat s b (off + i) = Some (Some x)) ->
  (oaddr v = None -> l = []) -> value s o = Some l.
Proof.
  intros Hv Hl Hc Hn. unfold value. rewrite Hv. destruct (oaddr v) as [[b off]|] eqn:Ea.
  - apply read_window_iff. split; auto.
  - rewrite Hn in * by auto. simpl in Hl. now rewrite Hl.
Qed.

Lemma mapped_ok (s : state) o : mapped s o -> forall v, nth_error (objs s) o = Some (Some v) ->
  (oaddr v = None -> olen v = 0) /\
  (forall b off, oaddr v = Some (b, off) -> forall i, i < olen v -> exists c, cellat s b (off + i) = Some c).
Proof.
  intros [v' [A B]] v Hv. rewrite Hv in A. injection A as <-.
  destruct (oaddr v) as [[b off]|] eqn:Ea.
  - split; [discriminate|]. intros b' off' E; injection E as <- <-. auto.
  - split; auto. discriminate.
Qed.

(** ** Denotation *)
Lemma zip_with_inv (f : T -> T -> T) l1 : forall l2 l, zip_with f l1 l2 = Some l ->
  length l1 = length l /\ length l2 = length l /\
  forall i x, nth_error l i = Some x -> exists x1 x2,
    nth_error l1 i = Some x1 /\ nth_error l2 i = Some x2 /\ x = f x1 x2.
Proof.
  induction l1 as [|a l1 IH]; intros [|b l2] l H; simpl in H; try discriminate.
  - injection H as <-. repeat split. intros [|i] x; discriminate.
  - destruct (zip_with f l1 l2) as [l'|] eqn:E; [|discriminate]. injection H as <-.
    apply IH in E as [A [B C]]. simpl. repeat split; auto.
    intros [|i] x; simpl; [|auto]. intros H; injection H as <-. eauto.
Qed.

Lemma delete_nth_length (l : list T) k : k < length l -> length (delete_nth k l) = length l - 1.
Proof.
  intros H. unfold delete_nth. rewrite app_length, firstn_length, skipn_length. lia.
Qed.
Lemma nth_error_firstn' {A} (l : list A) : forall k i, i < k -> nth_error (firstn k l) i = nth_error l i.
Proof.
  induction l as [|a l IH]; intros [|k] [|i] H; simpl; auto; try lia. apply IH; lia.
Qed.
Lemma nth_error_skipn' {A} (l : list A) : forall k i, nth_error (skipn k l) i = nth_error l (k + i).
Proof.
  induction l as [|a l IH]; intros [|k] i; simpl; auto. destruct i; reflexivity.
Qed.
Lemma nth_error_delete (l : list T) k i : k < length l ->
  nth_error (delete_nth k l) i = nth_error l (if i <? k then i else i + 1).
Proof.
  intros H. unfold delete_nth. destruct (Nat.ltb_spec i k).
  - rewrite nth_error_app1 by (rewrite firstn_length; lia). apply nth_error_firstn'; auto.
  - rewrite nth_error_app2 by (rewrite firstn_length; lia). rewrite firstn_length.
    rewrite nth_error_skipn'. f_equal. lia.
Qed.

Lemma den_ext (env env' : nat -> option (list T)) e :
  (forall o, In o (e_objs e) -> env' o = env o) -> den env' e = den env e.
Proof.
  induction e; simpl; intros H; auto.
  - now rewrite IHe.
  - rewrite IHe1, IHe2; auto; intros; apply H, in_or_app; auto.
  - now rewrite IHe.
  - rewrite IHe1, IHe2; auto; intros; apply H, in_or_app; auto.
  - now rewrite IHe.
Qed.

Lemma cross3_inv (m d : T -> T -> T) (o1 o2 : option (list T)) l :
  match o1, o2 with
  | Some [a0; a1; a2], Some [b0; b1; b2] =>
      Some [d (m a1 b2) (m a2 b1); d (m a2 b0) (m a0 b2); d (m a0 b1) (m a1 b0)]
  | _, _ => None
  end = Some l -> exists a0 a1 a2 b0 b1 b2, o1 = Some [a0; a1; a2] /\ o2 = Some [b0; b1; b2] /\
    l = [d (m a1 b2) (m a2 b1); d (m a2 b0) (m a0 b2); d (m a0 b1) (m a1 b0)].
Proof.
  destruct o1 as [[|a0 [|a1 [|a2 [|a3 l1]]]]|]; try discriminate.
  destruct o2 as [[|b0 [|b1 [|b2 [|b3 l2]]]]|]; try discriminate.
  intros H. injection H as <-. exists a0, a1, a2, b0, b1, b2. auto.
Qed.

Lemma den_size (s : state) e : forall l, den (value s) e = Some l ->
  all_alive s e /\ well_sized s e /\ esz s e = Z.of_nat (length l).
Proof.
  induction e; simpl; intros ld H.
  - apply value_inv in H as [v [A [B _]]]. repeat split; eauto.
    now rewrite (size_of_eq _ _ _ A), B.
  - injection H as <-. auto.
  - destruct (den (value s) e) as [l1|]; [|discriminate]. injection H as <-.
    rewrite map_length. apply IHe; auto.
  - destruct (den (value s) e1) as [l1|]; [|discriminate].
    destruct (den (value s) e2) as [l2|]; [|discriminate].
    apply zip_with_inv in H as [A [B _]].
    destruct (IHe1 l1 eq_refl) as [C1 [C2 C3]]. destruct (IHe2 l2 eq_refl) as [D1 [D2 D3]].
    repeat split; auto; rewrite ?C3, ?D3; congruence.
  - destruct (den (value s) e) as [l1|]; [|discriminate]. injection H as <-.
    rewrite map_length. apply IHe; auto.
  - apply cross3_inv in H as (a0&a1&a2&b0&b1&b2&E1&E2&->).
    destruct (IHe1 _ E1) as [C1 [C2 C3]]. destruct (IHe2 _ E2) as [D1 [D2 D3]].
    simpl in C3, D3 |- *. auto 7.
  - destruct (den (value s) e) as [l1|]; [|discriminate].
    destruct (Nat.ltb_spec skip (length l1)); [|discriminate]. injection H as <-.
    rewrite delete_nth_length by auto. destruct (IHe l1 eq_refl) as [A [B C]].
    repeat split; auto. rewrite C. lia.
Qed.

Lemma e_get_den (s : state) e : forall l i x, den (value s) e = Some l -> nth_error l i = Some x ->
  e_get e i s = ROk x s.
Proof.
  induction e; cbn [den e_get]; intros ld i x H Hx.
  - apply value_inv in H as [v [A [B C]]]. destruct (C _ _ Hx) as [b [off [D E]]].
    eapply obj_get_ok; eauto.
  - injection H as <-. rewrite Hx. reflexivity.
  - destruct (den (value s) e) as [l1|]; [|discriminate]. injection H as <-.
    rewrite nth_error_map in Hx. destruct (nth_error l1 i) as [y|] eqn:Ey; [|discriminate].
    injection Hx as <-. rewrite (bindM_ok _ _ _ _ _ (IHe _ _ _ eq_refl Ey)). reflexivity.
  - destruct (den (value s) e1) as [l1|]; [|discriminate].
    destruct (den (value s) e2) as [l2|]; [|discriminate].
    apply zip_with_inv in H as [_ [_ C]]. destruct (C _ _ Hx) as [x1 [x2 [D1 [D2 ->]]]].
    rewrite (bindM_ok _ _ _ _ _ (IHe1 _ _ _ eq_refl D1)).
    rewrite (bindM_ok _ _ _ _ _ (IHe2 _ _ _ eq_refl D2)). reflexivity.
  - destruct (den (value s) e) as [l1|]; [|discriminate]. injection H as <-.
    rewrite nth_error_map in Hx. destruct (nth_error l1 i) as [y|] eqn:Ey; [|discriminate].
    injection Hx as <-. rewrite (bindM_ok _ _ _ _ _ (IHe _ _ _ eq_refl Ey)). reflexivity.
  - apply cross3_inv in H as (a0&a1&a2&b0&b1&b2&E1&E2&->).
    assert (G1 : forall j y, nth_error [a0; a1; a2] j = Some y -> e_get e1 j s = ROk y s)
      by (intros; eapply IHe1; eauto).
    assert (G2 : forall j y, nth_error [b0; b1; b2] j = Some y -> e_get e2 j s = ROk y s)
      by (intros; eapply IHe2; eauto).
    cbv zeta.
    destruct i as [|[|[|i]]]; [..|destruct i; discriminate];
      cbn [Nat.add Nat.modulo Nat.divmod Nat.sub snd]; injection Hx as <-.
    + rewrite (bindM_ok _ _ _ _ _ (G1 1 a1 eq_refl)), (bindM_ok _ _ _ _ _ (G2 2 b2 eq_refl)).
      rewrite (bindM_ok _ _ _ _ _ (G1 2 a2 eq_refl)), (bindM_ok _ _ _ _ _ (G2 1 b1 eq_refl)). reflexivity.
    + rewrite (bindM_ok _ _ _ _ _ (G1 2 a2 eq_refl)), (bindM_ok _ _ _ _ _ (G2 0 b0 eq_refl)).
      rewrite (bindM_ok _ _ _ _ _ (G1 0 a0 eq_refl)), (bindM_ok _ _ _ _ _ (G2 2 b2 eq_refl)). reflexivity.
    + rewrite (bindM_ok _ _ _ _ _ (G1 0 a0 eq_refl)), (bindM_ok _ _ _ _ _ (G2 1 b1 eq_refl)).
      rewrite (bindM_ok _ _ _ _ _ (G1 1 a1 eq_refl)), (bindM_ok _ _ _ _ _ (G2 0 b0 eq_refl)). reflexivity.
  - destruct (den (value s) e) as [l1|]; [|discriminate].
    destruct (Nat.ltb_spec skip (length l1)); [|discriminate]. injection H as <-.
    rewrite nth_error_delete in Hx by auto. eapply IHe; eauto.
Qed.

(** ** The state after check_or_resize *)
Definition ready (s : state) (o : nat) (n : nat) : Prop :=
  exists v, nth_error (objs s) o = Some (Some v) /\ olen v = n /\ mapped s o.

Lemma owned_of_owns (s : state) o v : owns_block s o -> nth_error (objs s) o = Some (Some v) -> owned s v.
Proof.
  intros [v' [A [B C]]] Hv. rewrite Hv in A. injection A as <-. unfold owned.
  destruct (oaddr v) as [[b off]|]; auto. destruct C as [-> [cs [C D]]]. split; auto.
  unfold bsize. rewrite C. simpl. congruence.
Qed.

Lemma owns_mapped (s : state) o : owns_block s o -> mapped s o.
Proof.
  intros [v [A [B C]]]. exists v. split; auto. destruct (oaddr v) as [[b off]|]; auto.
  destruct C as [-> [cs [C D]]]. intros i Hi. unfold cellat. rewrite C. simpl.
  destruct (nth_error cs i) eqn:E; eauto. apply nth_error_None in E. lia.
Qed.

(** Outcome of check_or_resize when it does not throw. *)
Lemma check_or_resize_ok (s : state) o n ex :
  (size_of s o = n /\ mapped s o) \/ (owns_block s o /\ alloc_succeeds s) ->
  exists s', check_or_resize true o (Z.of_nat n) ex s = ROk tt s' /\ ready s' o n /\
    ((s' = s) \/ (owns_block s o /\ size_of s o <> n /\
       exists v, nth_error (objs s) o = Some (Some v) /\ resized s s' o v n (Nat.min (olen v) n))).
Proof.
  intros H.
  assert (Hm : mapped s o) by (destruct H as [[_ H]|[H _]]; auto using owns_mapped).
  destruct Hm as [v [Hv Hv']]. assert (Hm : mapped s o) by (exists v; auto).
  assert (Hsz := size_of_eq _ _ _ Hv).
  unfold check_or_resize. rewrite (bindM_ok _ _ _ v s) by (apply get_obj_ok; auto).
  destruct (Nat.eq_dec (olen v) n) as [<-|Hn].
  - exists s. split; [|split; [exists v; auto|auto]].
    destruct (resizable (okind v)); [apply resize_same; auto|].
    apply requireM_true. apply Z.eqb_eq; auto.
  - destruct H as [[H _]|[Ho Ha]]; [congruence|].
    assert (Hk : okind v = KAllocated).
    { destruct Ho as [v' [A [B _]]]. rewrite Hv in A. injection A as <-. auto. }
    rewrite Hk. cbn [resizable].
    destruct (resize_spec s o v n Hv (owned_of_owns _ _ _ Ho Hv)) as [[r [Hr _]]|[_ [s' [E R]]]]; auto.
    { unfold alloc_succeeds in Ha. rewrite Hr in Ha. discriminate. }
    exists s'. split; auto. split.
    + exists (VObj (okind v) (Some (length (blocks s), 0)) n).
      assert (Ho' := rs_objs _ _ _ _ _ _ R o). destruct (Nat.eq_dec o o); [|congruence].
      split; auto. split; auto. eexists. split; eauto. simpl. intros i Hi.
      apply cellat_bsize. exists n. split; auto. apply (rs_new _ _ _ _ _ _ R).
    + right. split; auto. split; [congruence|]. exists v. auto.
Qed.

(** After the resize, vectors that do not share memory keep their values. *)
Lemma resized_other (s s' : state) o v n k : nth_error (objs s) o = Some (Some v) ->
  owns_block s o -> resized s s' o v n k ->
  forall o', o' <> o -> mapped s o' \/ (exists l, value s o' = Some l) ->
  nth_error (objs s') o' = nth_error (objs s) o' /\
  (~ overlap s o' o -> (forall b i, in_window s o' b i -> cellat s' b i = cellat s b i)).
Proof.
  intros Hv Hown R o' Ho' Hm.
  assert (E := rs_objs _ _ _ _ _ _ R o'). destruct (Nat.eq_dec o' o); [congruence|].
  split; auto. intros Hno b i [v' [off [A [B C]]]].
  assert (Hc : exists c, cellat s b i = Some c).
  { destruct Hm as [Hm|[l Hl]].
    - destruct (mapped_ok _ _ Hm v' A) as [_ M2]. destruct (M2 b off B (i - off)) as [c Hc]; [lia|].
      exists c. rewrite <- Hc. f_equal. lia.
    - apply value_inv in Hl as [v2 [A2 [L2 C2]]]. rewrite A in A2. injection A2 as <-.
      destruct (nth_error l (i - off)) as [x|] eqn:Ex.
      + destruct (C2 _ _ Ex) as [b2 [off2 [D2 E2]]]. rewrite B in D2. injection D2 as <- <-.
        replace (off + (i - off)) with i in E2 by lia. eauto.
      + apply nth_error_None in Ex. lia. }
  destruct Hc as [c Hc].
  assert (Hb : b < length (blocks s)).
  { unfold cellat in Hc. destruct (get_block s b) eqn:Eb; [|discriminate]. eapply get_block_bound; eauto. }
  apply cellat_get_block. apply (rs_other _ _ _ _ _ _ R); [lia|].
  intros off' Ea. apply Hno. exists b, i. split; [exists v', off; auto|].
  exists v, off'. split; auto. split; auto.
  destruct Hown as [v2 [A2 [_ C2]]]. rewrite Hv in A2. injection A2 as <-. rewrite Ea in C2.
  destruct C2 as [-> [cs [C2 L2]]]. unfold cellat in Hc. rewrite C2 in Hc.
  assert (i < length cs) by (apply nth_error_Some; congruence). lia.
Qed.

(** ** Store loops: value-level rule *)
Lemma in_window_shape (s s' : state) o b i : (forall o, nth_error (objs s') o = nth_error (objs s) o) ->
  in_window s o b i -> in_window s' o b i.
Proof. intros H [v [off [A [B C]]]]. exists v, off. rewrite H. auto. Qed.

Lemma store_value (s : state) o (l : list T) (body : nat -> M T) :
  ready s o (length l) ->
  (forall k x sk, nth_error l k = Some x -> same_shape s sk ->
     (forall o', o' <> o -> ~ overlap s o' o -> value sk o' = value s o') ->
     (forall b i, (forall v off, nth_error (objs s) o = Some (Some v) -> oaddr v = Some (b, off) ->
                                 ~ (off <= i < off + k)) -> cellat sk b i = cellat s b i) ->
     body k sk = ROk x sk) ->
  exists s', forM (length l) 0 (fun i => bindM (body i) (fun x => obj_put o i x)) s = ROk tt s' /\
    same_shape s s' /\ value s' o = Some l /\
    (forall b i, ~ in_window s o b i -> cellat s' b i = cellat s b i).
Proof.
  intros [v [Hv [Hlen Hm]]] Hbody.
  destruct (mapped_ok _ _ Hm v Hv) as [M1 M2].
  destruct (oaddr v) as [[bt offt]|] eqn:Ea.
  2:{ assert (l = []) as -> by (apply length_zero_iff_nil; rewrite <- Hlen; auto). simpl.
      exists s. split; auto. split; [apply same_shape_refl|]. split.
      - apply (value_intro s o v); auto; try (intros; congruence).
      - auto. }
  destruct l as [|d l'] eqn:El.
  { simpl. exists s. split; auto. split; [apply same_shape_refl|]. split.
      - apply (value_intro s o v); auto; intros b off _ [|i] x; discriminate.
      - auto. }
  rewrite <- El in *.
  set (vals := fun i => nth i l d).
  assert (Hnth : forall i, i < length l -> nth_error l i = Some (vals i)).
  { intros i Hi. unfold vals. apply nth_error_nth'. auto. }
  assert (Hfr : forall k sk, same_shape s sk -> k <= length l ->
     (forall b i, cellat sk b i =
        if Nat.eq_dec b bt then if (offt <=? i) && (i <? offt + k)
                                then Some (Some (vals (i - offt))) else cellat s b i
        else cellat s b i) ->
     forall o', o' <> o -> ~ overlap s o' o -> value sk o' = value s o').
  { intros k sk Sh Hk Hc o' Ho' Hno. apply value_ext; [apply same_shape_obj; auto|].
    intros b i Hw. rewrite Hc. destruct (Nat.eq_dec b bt) as [->|]; auto.
    destruct (Nat.leb_spec offt i), (Nat.ltb_spec i (offt + k)); simpl; auto.
    exfalso. apply Hno. exists bt, i. split; auto. exists v, offt. repeat split; auto; lia. }
  destruct (store_loop s o v bt offt (length l) body vals) as [s' [E [Sh Hc]]]; auto.
  - intros i Hi. apply (M2 bt offt); auto. lia.
  - intros k sk Hk Sh Hc. apply (Hbody k (vals k) sk); auto.
    + apply (Hfr k); auto. lia.
    + intros b i Hout. rewrite Hc. destruct (Nat.eq_dec b bt) as [->|]; auto.
      destruct (Nat.leb_spec offt i), (Nat.ltb_spec i (offt + k)); simpl; auto.
      exfalso. apply (Hout v offt); auto.
  - exists s'. split; auto. split; auto. split.
    + apply (value_intro s' o v); auto; [rewrite (same_shape_obj _ _ _ Sh); auto| |congruence].
      intros b off Eb i x Hx. rewrite Ea in Eb. injection Eb as <- <-. rewrite Hc.
      destruct (Nat.eq_dec bt bt); [|congruence].
      assert (i < length l) by (apply nth_error_Some; congruence).
      replace ((offt <=? offt + i) && (offt + i <? offt + length l)) with true.
      * rewrite Hnth in Hx by auto. injection Hx as <-. repeat f_equal. lia.
      * symmetry. apply andb_true_iff. split; [apply Nat.leb_le|apply Nat.ltb_lt]; lia.
    + intros b i Hw. rewrite Hc. destruct (Nat.eq_dec b bt) as [->|]; auto.
      destruct (Nat.leb_spec offt i), (Nat.ltb_spec i (offt + length l)); simpl; auto.
      exfalso. apply Hw. exists v, offt. repeat split; auto; lia.
Qed.

Lemma frame_value (s s' : state) o : same_shape s s' ->
  (forall b i, ~ in_window s o b i -> cellat s' b i = cellat s b i) -> others_kept s s' o.
Proof.
  intros Sh Hf o' Ho'. split; [apply same_shape_obj; auto|]. intros Hno.
  apply value_ext; [apply same_shape_obj; auto|]. intros b i Hw. apply Hf.
  intros Hw'. apply Hno. exists b, i. auto.
Qed.

Lemma built_of_den (s : state) e l : den (value s) e = Some l ->
  e_build e s = ROk tt s /\ e_size e s = ROk (Z.of_nat (length l)) s.
Proof.
  intros H. destruct (den_size _ _ _ H) as [A [B C]]. split.
  - destruct (e_build_spec s e A) as [[_ ->]|[D _]]; auto. contradiction.
  - now rewrite e_size_ok, C.
Qed.

Lemma den_mapped (s : state) e l : den (value s) e = Some l ->
  forall o, In o (e_objs e) -> exists l', value s o = Some l'.
Proof.
  revert l; induction e; simpl; intros ld H o' Hin.
  - destruct Hin as [<-|[]]; eauto.
  - destruct Hin.
  - destruct (den (value s) e) as [l1|]; [|discriminate]. eauto.
  - destruct (den (value s) e1) as [l1|]; [|discriminate].
    destruct (den (value s) e2) as [l2|]; [|discriminate].
    apply in_app_or in Hin as []; eauto.
  - destruct (den (value s) e) as [l1|]; [|discriminate]. eauto.
  - apply cross3_inv in H as (a0&a1&a2&b0&b1&b2&E1&E2&->). apply in_app_or in Hin as []; eauto.
  - destruct (den (value s) e) as [l1|]; [|discriminate]. eauto.
Qed.

Lemma overlap_resized (s s' : state) o v n k o' :
  nth_error (objs s) o = Some (Some v) -> owns_block s o -> resized s s' o v n k ->
  o' <> o -> (exists l, value s o' = Some l) -> ~ overlap s' o' o.
Proof.
  intros Hv Hown R Ho' [l Hl] [b [i [[v1 [off1 [A [B C]]]] [v2 [off2 [A2 [B2 C2]]]]]]].
  assert (E := rs_objs _ _ _ _ _ _ R o). destruct (Nat.eq_dec o o); [|congruence].
  rewrite A2 in E. injection E as ->. simpl in B2. injection B2 as <- <-.
  assert (E := rs_objs _ _ _ _ _ _ R o'). destruct (Nat.eq_dec o' o); [congruence|].
  rewrite A in E. symmetry in E.
  apply value_inv in Hl as [v3 [A3 [L3 C3]]]. rewrite E in A3. injection A3 as <-.
  destruct (nth_error l (i - off1)) as [x|] eqn:Ex.
  - destruct (C3 _ _ Ex) as [b3 [off3 [D3 E3]]]. rewrite B in D3. injection D3 as <- <-.
    unfold cellat in E3. destruct (get_block s (length (blocks s))) eqn:Eb; [|discriminate].
    apply get_block_bound in Eb. lia.
  - apply nth_error_None in Ex. lia.
Qed.

(** Common part of the assignment theorems. *)
Lemma assign_via (s : state) o e l :
  den (value s) e = Some l ->
  (size_of s o = length l /\ mapped s o) \/
  (owns_block s o /\ alloc_succeeds s /\ forall o', In o' (e_objs e) -> o' <> o /\ ~ overlap s o' o) ->
  (size_of s o = length l -> forall s', same_shape s s' -> forall k x,
     nth_error l k = Some x ->
     (forall o', o' <> o -> ~ overlap s o' o -> value s' o' = value s o') ->
     (forall b i, (forall v off, nth_error (objs s) o = Some (Some v) -> oaddr v = Some (b, off) ->
                                 ~ (off <= i < off + k)) -> cellat s' b i = cellat s b i) ->
     e_get e k s' = ROk x s') ->
  exists s', assign true o e s = ROk tt s' /\ value s' o = Some l /\
    (forall o', o' <> o -> mapped s o' \/ (exists l, value s o' = Some l) ->
       nth_error (objs s') o' = nth_error (objs s) o' /\
       (~ overlap s o' o -> value s' o' = value s o')).
Proof.
  intros Hd Hsz Hget.
  destruct (built_of_den _ _ _ Hd) as [Hb Hes].
  unfold assign. rewrite (bindM_ok _ _ _ _ _ Hb), (bindM_ok _ _ _ _ _ Hes).
  destruct (check_or_resize_ok s o (length l) EIncompatibleVectorSize) as [s1 [E1 [R1 Hs1]]].
  { destruct Hsz as [|[A [B C]]]; auto. }
  rewrite (bindM_ok _ _ _ _ _ E1).
  destruct R1 as [v [Hv [Hlen Hm]]].
  rewrite (bindM_ok _ _ _ v s1) by (apply get_obj_ok; auto). rewrite Hlen.
  destruct Hs1 as [->|[Hown [Hne [v0 [Hv0 R]]]]].
  - destruct (store_value s o l (fun i => e_get e i)) as [s' [E [Sh [Hval Hf]]]].
    + exists v; auto.
    + intros k x sk Hx Sh H1 H2. apply Hget; auto. rewrite (size_of_eq _ _ _ Hv). auto.
    + exists s'. split; auto. split; auto. intros o' Ho' _. apply frame_value; auto.
  - assert (Hdis : forall o', In o' (e_objs e) -> o' <> o /\ ~ overlap s o' o).
    { destruct Hsz as [[]|[_ [_ H]]]; [congruence|auto]. }
    assert (Hmap := den_mapped _ _ _ Hd).
    assert (Hd1 : den (value s1) e = Some l).
    { rewrite <- Hd. apply den_ext. intros o' Hin. destruct (Hdis _ Hin) as [D1 D2].
      destruct (resized_other s s1 o v0 _ _ Hv0 Hown R o' D1 (or_intror (Hmap _ Hin))) as [F1 F2].
      apply value_ext; auto. }
    destruct (store_value s1 o l (fun i => e_get e i)) as [s' [E [Sh [Hval Hf]]]].
    + exists v; auto.
    + intros k x sk Hx Sh H1 _. eapply e_get_den; eauto. rewrite <- Hd1. apply den_ext.
      intros o' Hin. destruct (Hdis _ Hin) as [D1 D2]. apply H1; auto.
      eapply overlap_resized; eauto.
    + exists s'. split; auto. split; auto. intros o' Ho' Hmo'.
      assert (Hoth := frame_value _ _ _ Sh Hf). destruct (Hoth o' Ho') as [O1 O2].
      destruct (resized_other s s1 o v0 _ _ Hv0 Hown R o' Ho' Hmo') as [F1 F2].
      split; [congruence|]. intros Hno.
      assert (Hw : forall b i, in_window s o' b i -> cellat s' b i = cellat s b i).
      { intros b i Hw. rewrite <- (F2 Hno b i Hw).
        apply Hf. intros [v2 [off2 [A2 [B2 C2]]]].
        assert (E2 := rs_objs _ _ _ _ _ _ R o). destruct (Nat.eq_dec o o); [|congruence].
        rewrite A2 in E2. injection E2 as ->. simpl in B2. injection B2 as <- <-.
        destruct Hw as [v' [off [W1 [W2 W3]]]].
        assert (Hcell : cellat s (length (blocks s)) i <> None).
        { destruct Hmo' as [Hmo|[lo Hlo]].
          - destruct (mapped_ok _ _ Hmo v' W1) as [_ M2].
            destruct (M2 _ off W2 (i - off)) as [c Hc]; [lia|].
            replace (off + (i - off)) with i in Hc by lia. congruence.
          - apply value_inv in Hlo as [v2 [A3 [L2 C3]]]. rewrite W1 in A3. injection A3 as <-.
            destruct (nth_error lo (i - off)) as [x|] eqn:Ex; [|apply nth_error_None in Ex; lia].
            destruct (C3 _ _ Ex) as [b2 [off2 [D2 E2]]]. rewrite W2 in D2. injection D2 as <- <-.
            replace (off + (i - off)) with i in E2 by lia. congruence. }
        unfold cellat in Hcell. destruct (get_block s (length (blocks s))) eqn:Eb; [|congruence].
        apply get_block_bound in Eb. lia. }
      apply value_ext; auto. congruence.
Qed.



(** ** The two aliasing disciplines *)
Lemma get_elementwise (s s' : state) o e l k x :
  elementwise e -> den (value s) e = Some l -> size_of s o = length l ->
  (exists v, nth_error (objs s) o = Some (Some v)) ->
  (forall o', In o' (e_objs e) -> ~ overlaps_from_below s o' o) ->
  same_shape s s' -> nth_error l k = Some x ->
  (forall b i, (forall v off, nth_error (objs s) o = Some (Some v) -> oaddr v = Some (b, off) ->
                              ~ (off <= i < off + k)) -> cellat s' b i = cellat s b i) ->
  e_get e k s' = ROk x s'.
Proof.
  intros He Hd Hsz [v Hv] Hlf Sh Hx Hc.
  assert (Hk : k < length l) by (apply nth_error_Some; congruence).
  destruct (den_size _ _ _ Hd) as [Ha [Hw Hes]].
  apply (e_get_ext s s'); auto.
  - intros; apply same_shape_obj; auto.
  - intros o' v' b off' Hin Hv' Ha'. apply Hc. intros v0 off Hv0 Ha0 Hr.
    rewrite Hv in Hv0. injection Hv0 as <-.
    assert (Hl' : Z.of_nat (length l) = Z.of_nat (olen v')).
    { rewrite <- Hes. eapply elementwise_size; eauto. split; auto. }
    rewrite (size_of_eq _ _ _ Hv) in Hsz.
    apply (Hlf o' Hin). split.
    + exists b, (off' + k). split; [exists v', off'|exists v, off]; repeat split; auto; lia.
    + exists v', v, b, off', off. repeat split; auto; lia.
  - eapply e_get_den; eauto.
Qed.

Lemma get_disjoint (s s' : state) o e l k x :
  den (value s) e = Some l ->
  (forall o', In o' (e_objs e) -> o' <> o /\ ~ overlap s o' o) -> nth_error l k = Some x ->
  (forall o', o' <> o -> ~ overlap s o' o -> value s' o' = value s o') ->
  e_get e k s' = ROk x s'.
Proof.
  intros Hd Hdis Hx Hv. eapply e_get_den; eauto. rewrite <- Hd. apply den_ext.
  intros o' Hin. destruct (Hdis _ Hin); auto.
Qed.

Lemma assign_elementwise_l (s : state) o e l :
  elementwise e -> den (value s) e = Some l ->
  (size_of s o = length l /\ mapped s o) \/
  (owns_block s o /\ alloc_succeeds s /\ forall o', In o' (e_objs e) -> o' <> o /\ ~ overlap s o' o) ->
  (forall o', In o' (e_objs e) -> ~ overlaps_from_below s o' o) ->
  exists s', assign true o e s = ROk tt s' /\ value s' o = Some l /\ frame s s' o.
Proof.
  intros He Hd Hsz Hlf. apply assign_via; auto.
  intros Hn s' Sh k x Hx _ Hc. eapply get_elementwise; eauto.
  destruct Hsz as [[_ [v [A _]]]|[[v [A _]] _]]; eauto.
Qed.

Lemma assign_disjoint_l (s : state) o e l :
  den (value s) e = Some l ->
  (size_of s o = length l /\ mapped s o) \/ (owns_block s o /\ alloc_succeeds s) ->
  (forall o', In o' (e_objs e) -> o' <> o /\ ~ overlap s o' o) ->
  exists s', assign true o e s = ROk tt s' /\ value s' o = Some l /\ frame s s' o.
Proof.
  intros Hd Hsz Hdis. apply assign_via; auto.
  - destruct Hsz as [|[]]; auto.
  - intros Hn s' Sh k x Hx Hv _. eapply get_disjoint; eauto.
Qed.

(** ** Compound assignment, minimize / maximize, scaling *)
Lemma body_as_bin (f : T -> T -> T) o e i (s : state) :
  bindM (obj_get o i) (fun x => bindM (e_get e i) (fun y => obj_put o i (f x y))) s =
  bindM (e_get (EBin f (EObj o) e) i) (fun x => obj_put o i x) s.
Proof.
  cbn [e_get]. unfold bindM. destruct (obj_get o i s); auto. destruct (e_get e i s0); auto.
Qed.

Lemma loop_elementwise (s : state) o e l v :
  elementwise e -> den (value s) e = Some l ->
  nth_error (objs s) o = Some (Some v) -> olen v = length l -> mapped s o ->
  (forall o', In o' (e_objs e) -> ~ overlaps_from_below s o' o) ->
  exists s', forM (length l) 0 (fun i => bindM (e_get e i) (fun x => obj_put o i x)) s = ROk tt s' /\
    value s' o = Some l /\ others_kept s s' o.
Proof.
  intros He Hd Hv Hl Hm Hlf.
  destruct (store_value s o l (fun i => e_get e i)) as [s' [E [Sh [Hval Hf]]]].
  - exists v; auto.
  - intros k x sk Hx Sh _ Hc. eapply get_elementwise; eauto.
    rewrite (size_of_eq _ _ _ Hv). auto.
  - exists s'. split; auto. split; auto. apply frame_value; auto.
Qed.

Lemma not_below_self (s : state) o : ~ overlaps_from_below s o o.
Proof.
  intros [_ (v1&v2&b&o1&o2&A&B&C&D&E)]. rewrite A in B. injection B as <-.
  rewrite C in D. injection D as <-. lia.
Qed.

Lemma mapped_of_value (s : state) o l : value s o = Some l -> mapped s o.
Proof.
  intros H. destruct (value_inv _ _ _ H) as [v [A [B C]]]. exists v. split; auto.
  destruct (oaddr v) as [[b off]|] eqn:Ea.
  - intros i Hi. destruct (nth_error l i) as [x|] eqn:Ex; [|apply nth_error_None in Ex; lia].
    destruct (C _ _ Ex) as [b' [off' [D E]]]. injection D as <- <-. eauto.
  - destruct l as [|x l]; auto. destruct (C 0 x eq_refl) as [b' [off' [D _]]]. discriminate.
Qed.

Lemma compound_l (s : state) f o e l :
  elementwise e -> den (value s) (EBin f (EObj o) e) = Some l ->
  (forall o', In o' (e_objs e) -> ~ overlaps_from_below s o' o) ->
  exists s', compound true f o e s = ROk tt s' /\ value s' o = Some l /\ others_kept s s' o.
Proof.
  intros He Hd Hlf. assert (Hd' := Hd). simpl in Hd'.
  destruct (value s o) as [l1|] eqn:E1; [|discriminate].
  destruct (den (value s) e) as [l2|] eqn:E2; [|discriminate].
  destruct (zip_with_inv _ _ _ _ Hd') as [A [B _]].
  destruct (built_of_den _ _ _ E2) as [Hb Hes].
  assert (Hm := mapped_of_value _ _ _ E1).
  destruct (value_inv _ _ _ E1) as [v [Hv [Hl _]]].
  unfold compound. rewrite (bindM_ok _ _ _ _ _ Hb), (bindM_ok _ _ _ _ _ Hes).
  rewrite (bindM_ok _ _ s tt s).
  2:{ unfold check_or_resize. rewrite (bindM_ok _ _ _ v s) by (apply get_obj_ok; auto).
      replace (length l2) with (olen v) by congruence.
      destruct (resizable (okind v)); [apply resize_same; auto|]. apply requireM_true. apply Z.eqb_refl. }
  rewrite (bindM_ok _ _ _ v s) by (apply get_obj_ok; auto).
  destruct (loop_elementwise s o (EBin f (EObj o) e) l v) as [s' [E [V F]]]; auto.
  - simpl; auto.
  - congruence.
  - intros o' [<-|Hin]; [apply not_below_self|auto].
  - exists s'. split; auto. rewrite <- E. replace (olen v) with (length l) by congruence.
    apply forM_ext. intros; apply body_as_bin.
Qed.

Lemma pairwise_l (s : state) f o e l :
  elementwise e -> den (value s) (EBin f (EObj o) e) = Some l ->
  (forall o', In o' (e_objs e) -> ~ overlaps_from_below s o' o) ->
  exists s', pairwise f o e s = ROk tt s' /\ value s' o = Some l /\ others_kept s s' o.
Proof.
  intros He Hd Hlf. assert (Hd' := Hd). simpl in Hd'.
  destruct (value s o) as [l1|] eqn:E1; [|discriminate].
  destruct (den (value s) e) as [l2|] eqn:E2; [|discriminate].
  destruct (zip_with_inv _ _ _ _ Hd') as [A [B _]].
  destruct (built_of_den _ _ _ E2) as [Hb Hes].
  assert (Hm := mapped_of_value _ _ _ E1).
  destruct (value_inv _ _ _ E1) as [v [Hv [Hl _]]].
  unfold pairwise. rewrite (bindM_ok _ _ _ _ _ Hb).
  rewrite (bindM_ok _ _ _ v s) by (apply get_obj_ok; auto).
  rewrite (bindM_ok _ _ _ _ _ Hes).
  rewrite (bindM_ok _ _ s tt s) by (apply requireM_true, Z.eqb_eq; congruence).
  destruct (loop_elementwise s o (EBin f (EObj o) e) l v) as [s' [E [V F]]]; auto.
  - simpl; auto.
  - congruence.
  - intros o' [<-|Hin]; [apply not_below_self|auto].
  - exists s'. split; auto. rewrite <- E. replace (olen v) with (length l) by congruence.
    apply forM_ext. intros; apply body_as_bin.
Qed.

(** Scaling by a reference that does not point into the vector. *)
Lemma sread_ok (s : state) r x : ref_value s r = Some x -> sread r s = ROk x s.
Proof.
  destruct r as [y|b i]; simpl.
  - intros H; injection H as <-. reflexivity.
  - destruct (cellat s b i) as [[y|]|] eqn:E; try discriminate. intros H; injection H as <-.
    unfold rd, bindM. now rewrite (rd_cell_ok _ _ _ _ E).
Qed.

Lemma nth_error_self_get (s s' : state) o v l k x :
  value s o = Some l -> nth_error (objs s) o = Some (Some v) -> nth_error l k = Some x ->
  same_shape s s' ->
  (forall b i, (forall v off, nth_error (objs s) o = Some (Some v) -> oaddr v = Some (b, off) ->
                              ~ (off <= i < off + k)) -> cellat s' b i = cellat s b i) ->
  obj_get o k s' = ROk x s'.
Proof.
  intros Hval Hv Hx Sh Hc. destruct (value_inv _ _ _ Hval) as [v' [A [B C]]].
  rewrite Hv in A. injection A as <-. destruct (C _ _ Hx) as [b [off [D E]]].
  eapply obj_get_ok; eauto; [rewrite (same_shape_obj _ _ _ Sh); eauto|].
  rewrite Hc; auto. intros v2 off2 Hv2 Ha2. rewrite Hv in Hv2. injection Hv2 as <-.
  rewrite D in Ha2. injection Ha2 as <-. lia.
Qed.

Lemma scale_outside_l (s : state) f o r l c :
  value s o = Some l -> ref_value s r = Some c -> ~ ref_inside s r o ->
  exists s', scale f o r s = ROk tt s' /\ value s' o = Some (map (fun x => f x c) l) /\
    others_kept s s' o.
Proof.
  intros Hval Hr Hout. assert (Hm := mapped_of_value _ _ _ Hval).
  destruct (value_inv _ _ _ Hval) as [v [Hv [Hl _]]].
  unfold scale. rewrite (bindM_ok _ _ _ v s) by (apply get_obj_ok; auto).
  destruct (store_value s o (map (fun x => f x c) l)
     (fun i => bindM (obj_get o i) (fun x => bindM (sread r) (fun k => ret (f x k)))))
    as [s' [E [Sh [V F]]]].
  - exists v. rewrite map_length. auto.
  - intros k x sk Hx Sh Hval' Hc.
    rewrite nth_error_map in Hx. destruct (nth_error l k) as [y|] eqn:Ey; [|discriminate].
    injection Hx as <-. assert (Hk : k < length l) by (apply nth_error_Some; congruence).
    rewrite (bindM_ok _ _ _ _ _ (nth_error_self_get s sk o v l k y Hval Hv Ey Sh Hc)).
    rewrite (bindM_ok _ _ _ c sk); [reflexivity|]. apply sread_ok.
    destruct r as [z|b i]; auto. simpl in *. rewrite Hc; auto.
    intros v2 off2 Hv2 Ha2 Hr2. apply Hout. exists v2, off2. repeat split; auto; try lia.
    rewrite Hv in Hv2. injection Hv2 as <-. lia.
  - exists s'. rewrite map_length in E. rewrite Hl. split; [|split; auto using frame_value].
    rewrite <- E. apply forM_ext. intros k s0 _. unfold bindM.
    destruct (obj_get o k s0); auto. destruct (sread r s1); auto.
Qed.

(** Scaling by a reference to the vector's own element j: every element after j
    is combined with the already updated element. *)
Lemma scale_inside_l (s : state) f o l j c v b off :
  value s o = Some l -> nth_error (objs s) o = Some (Some v) -> oaddr v = Some (b, off) ->
  nth_error l j = Some c ->
  exists s', scale f o (SCell b (off + j)) s = ROk tt s' /\
    value s' o = Some (self_scaled f l j c) /\ others_kept s s' o.
Proof.
  intros Hval Hv Ha Hj. assert (Hm := mapped_of_value _ _ _ Hval).
  destruct (value_inv _ _ _ Hval) as [v' [Hv' [Hl HC]]]. rewrite Hv in Hv'. injection Hv' as <-.
  assert (Hjl : j < length l) by (apply nth_error_Some; congruence).
  assert (Hlen : length (self_scaled f l j c) = length l).
  { unfold self_scaled. rewrite app_length, !map_length, firstn_length, skipn_length. lia. }
  unfold scale. rewrite (bindM_ok _ _ _ v s) by (apply get_obj_ok; auto). rewrite Hl.
  destruct (mapped_ok _ _ Hm v Hv) as [_ M2].
  set (res := self_scaled f l j c) in *.
  assert (Hres : forall k x, nth_error l k = Some x ->
            nth_error res k = Some (if k <=? j then f x c else f x (f c c))).
  { intros k x Hx. assert (k < length l) by (apply nth_error_Some; congruence).
    unfold res, self_scaled. destruct (Nat.leb_spec k j).
    - rewrite nth_error_app1 by (rewrite map_length, firstn_length; lia).
      rewrite nth_error_map, nth_error_firstn' by lia. now rewrite Hx.
    - rewrite nth_error_app2 by (rewrite map_length, firstn_length; lia).
      rewrite map_length, firstn_length, nth_error_map, nth_error_skipn'.
      replace (S j + (k - Nat.min (S j) (length l))) with k by lia. now rewrite Hx. }
  destruct (forM_inv (fun k sk => same_shape s sk /\
     (forall b' i', cellat sk b' i' =
        if Nat.eq_dec b' b then if (off <=? i') && (i' <? off + k)
           then option_map Some (nth_error res (i' - off)) else cellat s b' i'
        else cellat s b' i'))
     (fun i => bindM (obj_get o i) (fun x => bindM (rd b (off + j)) (fun k => obj_put o i (f x k))))
     (length l) 0 s) as [s' [E [Sh Hc]]].
  - split; [apply same_shape_refl|]. intros b' i'. destruct (Nat.eq_dec b' b); auto.
    destruct (Nat.leb_spec off i'), (Nat.ltb_spec i' (off + 0)); auto; lia.
  - intros k sk Hk [Sh Hc]. simpl in Hk.
    destruct (nth_error l k) as [x|] eqn:Ex; [|apply nth_error_None in Ex; lia].
    assert (Hx : obj_get o k sk = ROk x sk).
    { eapply (nth_error_self_get s sk); eauto. intros b' i' Hn. rewrite Hc.
      destruct (Nat.eq_dec b' b) as [->|]; auto.
      destruct (Nat.leb_spec off i'), (Nat.ltb_spec i' (off + k)); simpl; auto.
      exfalso. apply (Hn v off); auto. }
    rewrite (bindM_ok _ _ _ _ _ Hx).
    assert (Hcj : cellat s b (off + j) = Some (Some c)).
    { destruct (HC _ _ Hj) as [b2 [off2 [D2 E2]]]. rewrite Ha in D2. injection D2 as <- <-. auto. }
    set (cc := if k <=? j then c else f c c).
    assert (Hrd : rd b (off + j) sk = ROk cc sk).
    { unfold rd. assert (Hcell : cellat sk b (off + j) = Some (Some cc)).
      { rewrite Hc. destruct (Nat.eq_dec b b); [|congruence]. unfold cc.
        destruct (Nat.leb_spec off (off + j)); [|lia].
        destruct (Nat.ltb_spec (off + j) (off + k)), (Nat.leb_spec k j); try lia; simpl; auto.
        replace (off + j - off) with j by lia. rewrite (Hres j c Hj).
        now rewrite Nat.leb_refl. }
      rewrite (bindM_ok _ _ _ _ _ (rd_cell_ok _ _ _ _ Hcell)). reflexivity. }
    rewrite (bindM_ok _ _ _ _ _ Hrd).
    destruct (same_shape_cellat s sk b (off + k) Sh) as [c0 Hck]; [apply (M2 b off); auto; lia|].
    destruct (obj_put_ok sk o v b off k (f x cc) c0) as [s' [E [Sh' Hcell]]]; auto.
    { rewrite (same_shape_obj _ _ _ Sh); auto. }
    exists s'. split; auto. split; [eapply same_shape_trans; eauto|].
    intros b' i'. rewrite Hcell. destruct (Nat.eq_dec b' b) as [->|]; [|rewrite Hc; destruct (Nat.eq_dec b' b); congruence].
    destruct (Nat.eq_dec i' (off + k)) as [->|Hi].
    + replace ((off <=? off + k) && (off + k <? off + S k)) with true
        by (symmetry; apply andb_true_iff; split; [apply Nat.leb_le|apply Nat.ltb_lt]; lia).
      replace (off + k - off) with k by lia. rewrite (Hres k x Ex). unfold cc. simpl.
      destruct (k <=? j); reflexivity.
    + rewrite Hc. destruct (Nat.eq_dec b b); [|congruence].
      destruct (Nat.leb_spec off i'), (Nat.ltb_spec i' (off + k)), (Nat.ltb_spec i' (off + S k));
        simpl; auto; lia.
  - exists s'. simpl in Hc. split; [exact E|]. split.
    + apply (value_intro s' o v); auto; [rewrite (same_shape_obj _ _ _ Sh); auto|congruence| |congruence].
      intros b' off' Eb i x Hx. rewrite Ha in Eb. injection Eb as <- <-. rewrite Hc.
      destruct (Nat.eq_dec b b); [|congruence].
      assert (i < length res) by (apply nth_error_Some; congruence).
      replace ((off <=? off + i) && (off + i <? off + length l)) with true
        by (symmetry; apply andb_true_iff; split; [apply Nat.leb_le|apply Nat.ltb_lt]; lia).
      replace (off + i - off) with i by lia. now rewrite Hx.
    + apply frame_value; auto. intros b' i' Hw. rewrite Hc.
      destruct (Nat.eq_dec b' b) as [->|]; auto.
      destruct (Nat.leb_spec off i'), (Nat.ltb_spec i' (off + length l)); simpl; auto.
      exfalso. apply Hw. exists v, off. repeat split; auto; lia.
Qed.

(** fill by reference: also right when the reference is to an own element. *)
Lemma fill_l (s : state) o r n c :
  mapped s o -> size_of s o = n -> ref_value s r = Some c ->
  exists s', fill o r s = ROk tt s' /\ value s' o = Some (repeat c n) /\ others_kept s s' o.
Proof.
  intros Hm Hn Hr. destruct Hm as [v [Hv Hv']]. assert (Hm : mapped s o) by (exists v; auto).
  rewrite (size_of_eq _ _ _ Hv) in Hn.
  unfold fill. rewrite (bindM_ok _ _ _ v s) by (apply get_obj_ok; auto). rewrite Hn.
  destruct (mapped_ok _ _ Hm v Hv) as [M1 M2].
  destruct (oaddr v) as [[b off]|] eqn:Ea.
  2:{ assert (n = 0) as -> by (rewrite <- Hn; auto). simpl. exists s. split; auto. split.
      - apply (value_intro s o v); auto. congruence.
      - intros o' _; auto. }
  destruct (forM_inv (fun k sk => same_shape s sk /\
     (forall b' i', cellat sk b' i' =
        if Nat.eq_dec b' b then if (off <=? i') && (i' <? off + k)
           then Some (Some c) else cellat s b' i'
        else cellat s b' i'))
     (fun i => bindM (sread r) (fun k => obj_put o i k)) n 0 s) as [s' [E [Sh Hc]]].
  - split; [apply same_shape_refl|]. intros b' i'. destruct (Nat.eq_dec b' b); auto.
    destruct (Nat.leb_spec off i'), (Nat.ltb_spec i' (off + 0)); auto; lia.
  - intros k sk Hk [Sh Hc]. simpl in Hk.
    assert (Hs : ref_value sk r = Some c).
    { destruct r as [z|b' i']; auto. simpl in *. rewrite Hc.
      destruct (Nat.eq_dec b' b); auto. destruct ((off <=? i') && (i' <? off + k)); auto. }
    rewrite (bindM_ok _ _ _ _ _ (sread_ok _ _ _ Hs)).
    destruct (same_shape_cellat s sk b (off + k) Sh) as [c0 Hck]; [apply (M2 b off); auto; lia|].
    destruct (obj_put_ok sk o v b off k c c0) as [s' [E [Sh' Hcell]]]; auto.
    { rewrite (same_shape_obj _ _ _ Sh); auto. }
    exists s'. split; auto. split; [eapply same_shape_trans; eauto|].
    intros b' i'. rewrite Hcell. destruct (Nat.eq_dec b' b) as [->|]; [|rewrite Hc; destruct (Nat.eq_dec b' b); congruence].
    destruct (Nat.eq_dec i' (off + k)) as [->|Hi].
    + replace ((off <=? off + k) && (off + k <? off + S k)) with true
        by (symmetry; apply andb_true_iff; split; [apply Nat.leb_le|apply Nat.ltb_lt]; lia). auto.
    + rewrite Hc. destruct (Nat.eq_dec b b); [|congruence].
      destruct (Nat.leb_spec off i'), (Nat.ltb_spec i' (off + k)), (Nat.ltb_spec i' (off + S k));
        simpl; auto; lia.
  - exists s'. simpl in Hc. split; [exact E|]. split.
    + apply (value_intro s' o v); auto;
        [rewrite (same_shape_obj _ _ _ Sh); auto|rewrite repeat_length; auto| |congruence].
      intros b' off' Eb i x Hx. rewrite Ea in Eb. injection Eb as <- <-. rewrite Hc.
      destruct (Nat.eq_dec b b); [|congruence].
      assert (Hi : i < n) by (rewrite <- (repeat_length c n); apply nth_error_Some; congruence).
      rewrite nth_error_repeat in Hx by auto. injection Hx as <-.
      replace ((off <=? off + i) && (off + i <? off + n)) with true
        by (symmetry; apply andb_true_iff; split; [apply Nat.leb_le|apply Nat.ltb_lt]; lia). auto.
    + apply frame_value; auto. intros b' i' Hw. rewrite Hc.
      destruct (Nat.eq_dec b' b) as [->|]; auto.
      destruct (Nat.leb_spec off i'), (Nat.ltb_spec i' (off + n)); simpl; auto.
      exfalso. apply Hw. exists v, off. repeat split; auto; lia.
Qed.

Lemma replace_nth_nth (l : list T) i x k : i < length l ->
  nth_error (replace_nth l i x) k = if Nat.eq_dec k i then Some x else nth_error l k.
Proof.
  intros Hi. unfold replace_nth. destruct (Nat.eq_dec k i) as [->|Hk].
  - rewrite nth_error_app2 by (rewrite firstn_length; lia). rewrite firstn_length.
    replace (i - Nat.min i (length l)) with 0 by lia. reflexivity.
  - destruct (Nat.lt_ge_cases k i).
    + rewrite nth_error_app1 by (rewrite firstn_length; lia). apply nth_error_firstn'; auto.
    + rewrite nth_error_app2 by (rewrite firstn_length; lia). rewrite firstn_length.
      destruct (k - Nat.min i (length l)) as [|m] eqn:Em; [lia|]. simpl.
      rewrite (nth_error_skipn' l (S i)). f_equal. lia.
Qed.

(** A single put. *)
Lemma put_l (s : state) o l i x : value s o = Some l -> i < length l ->
  exists s', obj_put o i x s = ROk tt s' /\ value s' o = Some (replace_nth l i x) /\
    same_shape s s' /\ others_kept s s' o.
Proof.
  intros Hval Hi. assert (Hm := mapped_of_value _ _ _ Hval).
  destruct (value_inv _ _ _ Hval) as [v [Hv [Hl HC]]].
  destruct (nth_error l i) as [y|] eqn:Ey; [|apply nth_error_None in Ey; lia].
  destruct (HC _ _ Ey) as [b [off [Ha Hcy]]].
  destruct (obj_put_ok s o v b off i x (Some y)) as [s' [E [Sh Hc]]]; auto.
  exists s'. split; auto. split; [|split; auto].
  - apply (value_intro s' o v); auto.
    + rewrite (same_shape_obj _ _ _ Sh); auto.
    + unfold replace_nth. rewrite app_length, firstn_length. cbn [length]. rewrite skipn_length. lia.
    + intros b' off' Eb k z Hz. rewrite Ha in Eb. injection Eb as <- <-. rewrite Hc.
      destruct (Nat.eq_dec b b); [|congruence]. rewrite replace_nth_nth in Hz by auto.
      destruct (Nat.eq_dec k i) as [->|Hk].
      * destruct (Nat.eq_dec (off + i) (off + i)); congruence.
      * destruct (Nat.eq_dec (off + k) (off + i)); [lia|].
        destruct (HC _ _ Hz) as [b2 [off2 [D2 E2]]]. rewrite Ha in D2. injection D2 as <- <-. auto.
    + congruence.
  - apply frame_value; auto. intros b' i' Hw. rewrite Hc.
    destruct (Nat.eq_dec b' b) as [->|]; auto. destruct (Nat.eq_dec i' (off + i)) as [->|]; auto.
    exfalso. apply Hw. exists v, off. repeat split; auto; lia.
Qed.

Lemma others_kept_trans (s s1 s2 : state) o : objs s1 = objs s ->
  others_kept s s1 o -> others_kept s1 s2 o -> others_kept s s2 o.
Proof.
  intros Ho H1 H2 o' Ho'. destruct (H1 o' Ho') as [A B], (H2 o' Ho') as [C D].
  split; [congruence|]. intros Hno. rewrite D, B; auto.
  intros [b [i [[v1 [f1 W1]] [v2 [f2 W2]]]]]. apply Hno. rewrite Ho in *.
  exists b, i. split; [exists v1, f1|exists v2, f2]; auto.
Qed.

Lemma cardinal_l (s : state) z u o i n : mapped s o -> size_of s o = n -> i < n ->
  exists s', cardinal z u o i s = ROk tt s' /\
    value s' o = Some (replace_nth (repeat z n) i u) /\ others_kept s s' o.
Proof.
  intros Hm Hn Hi. unfold cardinal.
  destruct (fill_l s o (SVal z) n z) as [s1 [E1 [V1 F1]]]; auto.
  rewrite (bindM_ok _ _ _ _ _ E1).
  destruct (put_l s1 o (repeat z n) i u) as [s2 [E2 [V2 [Sh F2]]]]; auto.
  { rewrite repeat_length; auto. }
  exists s2. split; auto. split; auto.
  assert (Ho : objs s1 = objs s).
  { destruct Hm as [v [Hv _]]. unfold fill in E1.
    rewrite (bindM_ok _ _ _ v s) in E1 by (apply get_obj_ok; auto). clear -E1.
    revert E1. generalize 0 as k. generalize (olen v) as m. revert s.
    intros s m; revert s; induction m as [|m IH]; intros s k E; simpl in E.
    - injection E as <-. auto.
    - unfold bindM in E at 1. unfold bindM in E at 1. cbn [sread ret] in E.
      destruct (obj_put o k z s) as [u' s2| |] eqn:Ep; try discriminate.
      apply IH in E. rewrite E. clear -Ep. unfold obj_put, bindM, get_obj in Ep.
      destruct (nth_error (objs s) o) as [[v|]|]; try discriminate.
      destruct (oaddr v) as [[b off]|]; [|discriminate].
      destruct (wr_cell_inv s b (off + k) (Some z)) as [(s' & c0 & _ & W & [Sh _])|[_ W]];
        rewrite W in Ep; [|discriminate]. injection Ep as _ <-. auto. }
  eapply others_kept_trans; eauto.
Qed.

End HeapAssign.
