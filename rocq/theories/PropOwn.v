(** C80: vectors, matrices and quaternions that are set from their own elements. *)
From Coq Require Import List Bool Arith ZArith Lia.
From Verif Require Import Base MatModel QuatModel OwnModel OwnSpec OwnProofs.
From Verif Require Import HeapModel HeapSpec HeapFacts HeapProofs HeapAssign HeapParts.
Import ListNotations.
Open Scope nat_scope.

(** ** Vectors *)

(** v.set(e0, e1, ...): the elements are stored one after another.  An argument that refers to an
    element stored before it delivers the new contents, any other the old. *)
Theorem vector_set_lands : forall (T : Type) (v : vecw) (args : list (ref T)) (m : list T),
  v_fits v m -> length args = vn v -> sound_args args m ->
  exists m', v_set v args m = Ok m' /\ lands (fun k => vb v + k) args m m'.
Proof.
  intros T v args m Hf Hl Hs. unfold v_fits in Hf. unfold v_set, require. rewrite Hl, Nat.eqb_refl. simpl.
  rewrite v_pack_stores by lia. apply stores_lands; auto; intros; lia.
Qed.
(** It is not carried out when an argument refers to an element that does not exist, or when the
    count is wrong. *)
Theorem vector_set_rejects : forall (T : Type) (v : vecw) (args : list (ref T)) (m : list T),
  v_fits v m ->
  (length args <> vn v -> v_set v args m = Throw EVectorSize) /\
  (length args = vn v -> ~ sound_args args m -> v_set v args m = UB).
Proof.
  intros T v args m Hf. unfold v_set, require. split.
  - intros H. destruct (Nat.eqb_spec (vn v) (length args)); [lia|reflexivity].
  - intros Hl Hs. rewrite Hl, Nat.eqb_refl. simpl. rewrite v_pack_stores by lia. apply stores_unsound.
    destruct (existsb (fun r => match worth r m with None => true | _ => false end) args) eqn:E.
    + apply existsb_exists in E as [r [Hr E]]. exists r. destruct (worth r m); [discriminate|auto].
    + exfalso. apply Hs. intros r Hr Hn.
      assert (C : existsb (fun r => match worth r m with None => true | _ => false end) args = true).
      { apply existsb_exists. exists r. rewrite Hn. auto. }
      congruence.
Qed.
(** Whatever the contents, the call stores what its arguments were worth before it exactly when
    every argument that refers to an element stored before it refers to one that is stored from
    itself. *)
Theorem vector_set_by_value_iff : forall (T : Type) (a b : T) (v : vecw) (args : list (ref T)) (size : nat),
  a <> b -> vb v + vn v <= size -> length args = vn v ->
  (forall p, In (RMem p) args -> p < size) ->
  ((forall m m', length m = size -> v_set v args m = Ok m' -> by_value (fun k => vb v + k) args m m') <->
   (forall j k, j < k -> nth_error args k = Some (RMem (vb v + j)) ->
                nth_error args j = Some (RMem (vb v + j)))).
Proof.
  intros T a b v args size Hab Hf Hl Hp.
  assert (E : forall m, v_set v args m = stores (fun k => vb v + k) 0 args m).
  { intros m. unfold v_set, require. rewrite Hl, Nat.eqb_refl. simpl. apply v_pack_stores. lia. }
  split.
  - intros H. assert (Hh : harmless (fun k => vb v + k) args).
    { apply (by_value_harmless _ args size a b Hab); auto; try (intros; lia).
      intros m m' Hm Hs. apply H; auto. now rewrite E. }
    intros j k Hjk Hk. apply (Hh j k (vb v + j)); auto.
  - intros H m m' Hm Hs. rewrite E in Hs.
    destruct (stores_lands (fun k => vb v + k) args m) as [m2 [E2 L2]]; try (intros; lia).
    { intros r Hr. destruct r as [x|p]; simpl; [discriminate|]. apply nth_error_Some. rewrite Hm. auto. }
    rewrite E2 in Hs. injection Hs as <-. apply lands_by_value; auto.
    intros j k p Hjk Hk Hj. subst p. exact (H j k Hjk Hk).
Qed.
(** So a vector can be rearranged this way only by leaving it as it is. *)
Theorem vector_rearranged_iff : forall (T : Type) (a b : T) (n : nat) (perm : list nat),
  a <> b -> length perm = n -> NoDup perm -> (forall j, In j perm -> j < n) ->
  ((forall m m' : list T, length m = n -> v_set (Vecw 0 n) (map RMem perm) m = Ok m' ->
      forall k, k < n -> nth_error m' k = nth_error m (nth k perm 0)) <->
   perm = seq 0 n).
Proof.
  intros T a b n perm Hab Hl Hnd Hin.
  pose proof (vector_set_by_value_iff T a b (Vecw 0 n) (map RMem perm) n Hab) as B. simpl in B.
  assert (Hlm : length (map (@RMem T) perm) = n) by now rewrite map_length.
  assert (Hpm : forall p, In (@RMem T p) (map RMem perm) -> p < n).
  { intros p Hp. apply in_map_iff in Hp as [j [Ej Hj]]. injection Ej as <-. auto. }
  specialize (B (le_n n) Hlm Hpm).
  assert (Hnth : forall k, k < n -> nth_error (map (@RMem T) perm) k = Some (RMem (nth k perm 0))).
  { intros k Hk. rewrite nth_error_map, (nth_error_nth' _ 0) by lia. reflexivity. }
  split.
  - intros H.
    assert (Hh : forall j k, j < k -> nth_error (map (@RMem T) perm) k = Some (RMem j) ->
                             nth_error (map (@RMem T) perm) j = Some (RMem j)).
    { apply B. intros m m' Hm Hs.
      destruct (vector_set_lands T (Vecw 0 n) (map RMem perm) m) as [m2 [E2 L2]].
      { unfold v_fits. simpl. lia. } { auto. }
      { intros r Hr. apply in_map_iff in Hr as [j [<- Hj]]. simpl. apply nth_error_Some. rewrite Hm. auto. }
      rewrite E2 in Hs. injection Hs as <-. split; [apply L2|]. split.
      { intros p Hp. apply (proj1 (proj2 L2)). exact Hp. }
      intros k r Hr.
      assert (Hk : k < n) by (rewrite <- Hlm; apply nth_error_Some; congruence).
      rewrite Hnth in Hr by auto. injection Hr as <-. simpl. now apply H. }
    assert (Hge : forall k, k < n -> k <= nth k perm 0).
    { intros k Hk. destruct (le_lt_dec k (nth k perm 0)) as [|Hlt]; auto. exfalso.
      pose proof (Hh _ _ Hlt (Hnth k Hk)) as Hj. rewrite Hnth in Hj by lia. injection Hj as Hj.
      assert (nth k perm 0 = k); [|lia].
      apply (proj1 (NoDup_nth perm 0) Hnd); [lia|lia|congruence]. }
    assert (Heq : forall d k, k < n -> n - k <= d -> nth k perm 0 = k).
    { induction d as [|d IH]; intros k Hk Hd; [lia|].
      pose proof (Hge k Hk) as Hg. destruct (Nat.eq_dec (nth k perm 0) k) as [|Hne]; auto. exfalso.
      assert (Hj : nth k perm 0 < n) by (apply Hin, nth_In; lia).
      pose proof (IH (nth k perm 0) Hj) as Hjj.
      assert (nth k perm 0 = k); [|lia].
      apply (proj1 (NoDup_nth perm 0) Hnd); [lia|lia|]. apply Hjj. lia. }
    apply nth_ext with (d := 0) (d' := 0); [now rewrite seq_length|].
    intros k Hk. rewrite seq_nth by lia. apply (Heq n); lia.
  - intros -> m m' Hm Hs k Hk.
    assert (Hv : by_value (fun k => 0 + k) (map RMem (seq 0 n)) m m').
    { apply B; auto. intros j i Hji Hi. assert (Hi' : i < n) by (rewrite <- Hlm; apply nth_error_Some; congruence).
      rewrite Hnth in Hi by auto. rewrite seq_nth in Hi by auto. injection Hi. lia. }
    destruct Hv as [_ [_ V]]. specialize (V k _ (Hnth k Hk)). simpl in V. exact V.
Qed.
(** v = {e0, e1, ...} stores what the arguments were worth before the call, whatever they refer to. *)
Theorem vector_list_by_value : forall (T : Type) (v : vecw) (args : list (ref T)) (m : list T),
  v_fits v m -> length args = vn v -> sound_args args m ->
  exists m', v_list v args m = Ok m' /\ by_value (fun k => vb v + k) args m m'.
Proof.
  intros T v args m Hf Hl Hs. unfold v_fits in Hf. unfold v_list.
  destruct (copies_ok args m Hs) as [xs [E [L N]]]. rewrite E. simpl. unfold require.
  rewrite L, Hl, Nat.eqb_refl. simpl. rewrite v_pack_stores by (rewrite map_length; lia).
  destruct (stores_lands (fun k => vb v + k) (map RVal xs) m) as [m' [E' L']].
  - intros; lia.
  - intros k Hk. rewrite map_length in Hk. lia.
  - intros r Hr. apply in_map_iff in Hr as [x [<- _]]. discriminate.
  - exists m'. split; auto. eapply lands_values; eauto.
Qed.
(** v = a, where the array a lies at another place of the memory the vector refers to.  A vector in
    front of the array, at the array, or apart from it takes the contents of the array.  One that
    starts inside the array repeats the part of the array in front of the vector. *)
Theorem vector_from_overlapping_array : forall (T : Type) (v : vecw) (p : nat) (m : list T),
  v_fits v m -> p + vn v <= length m ->
  exists m', v_array v p (vn v) m = Ok m' /\ length m' = length m /\
    (forall q, q < vb v \/ vb v + vn v <= q -> nth_error m' q = nth_error m q) /\
    forall i, i < vn v -> nth_error m' (vb v + i) =
      nth_error m (if (p <? vb v) then p + i mod (vb v - p) else p + i).
Proof.
  intros T v p m Hf Hp. unfold v_fits in Hf. unfold v_array, require. rewrite Nat.eqb_refl. simpl.
  unfold loop. rewrite Nat.sub_0_r.
  rewrite (for_n_stores (fun k => vb v + k) (fun i => RMem (p + i))).
  2:{ intros k m0 Hk. unfold vput. rewrite (proj2 (Nat.ltb_lt k (vn v))) by lia. reflexivity. }
  destruct (stores_lands (fun k => vb v + k) (map (fun i => RMem (p + i)) (seq 0 (vn v))) m)
    as [m' [E [L [K [_ [S1 O1]]]]]].
  - intros; lia.
  - intros k Hk. rewrite map_length, seq_length in Hk. lia.
  - intros r Hr. apply in_map_iff in Hr as [i [<- Hi]]. apply in_seq in Hi. simpl.
    apply nth_error_Some. lia.
  - exists m'. split; [exact E|]. split; [exact L|]. split.
    + intros q Hq. apply K. intros k Hk. rewrite map_length, seq_length in Hk. lia.
    + assert (N : forall i, i < vn v -> nth_error (map (fun i => @RMem T (p + i)) (seq 0 (vn v))) i = Some (RMem (p + i))).
      { intros i Hi. apply nth_error_seq_map. auto. }
      destruct (Nat.ltb_spec p (vb v)) as [Hlt|Hge].
      * intros i. induction i as [i IH] using (well_founded_induction lt_wf). intros Hi.
        destruct (le_lt_dec (vb v) (p + i)) as [Hb|Hb].
        -- rewrite (S1 i (p + i) (N i Hi)) by (exists (p + i - vb v); lia).
           replace (p + i) with (vb v + (i - (vb v - p))) by lia.
           rewrite IH by lia. f_equal. f_equal.
           rewrite <- (Nat.mod_add (i - (vb v - p)) 1) by lia. f_equal. lia.
        -- rewrite (O1 i (p + i) (N i Hi)) by (intros [j Hj]; lia).
           rewrite Nat.mod_small by lia. reflexivity.
      * intros i Hi. apply (O1 i (p + i) (N i Hi)). intros [j Hj]. lia.
Qed.
(** A resizable vector that is set to another number of elements, some of them its own: the own
    elements are gone when they are read. *)
Theorem resized_set_of_own_element_refuted : forall (T : Type) (s : state T) (o : nat) (first rest : list (sref T))
    (xs : list T) (b i : nat),
  owns_block s o -> alloc_succeeds s -> in_window s o b i ->
  Forall2 (fun r x => ref_value s r = Some x /\ ~ ref_inside s r o) first xs ->
  size_of s o <> length (first ++ SCell b i :: rest) ->
  assign_elements true o (first ++ SCell b i :: rest) s = RUB UBMem.
Proof.
  intros T s o first rest xs b i Hown Ha Hw HF Hne. unfold assign_elements.
  set (rs := first ++ SCell b i :: rest) in *.
  destruct (check_or_resize_ok s o (length rs) EVectorSize (or_intror (conj Hown Ha))) as [s1 [E1 [R1 Hs1]]].
  rewrite (bindM_ok _ _ _ _ _ E1). destruct R1 as [v1 [Hv1 [Hlen Hm]]].
  destruct Hs1 as [->|[_ [_ [v0 [Hv0 R]]]]].
  { exfalso. apply Hne. rewrite (size_of_eq _ _ _ Hv1). auto. }
  destruct Hw as [v [off [Hv [Eo Hi]]]]. rewrite Hv0 in Hv. injection Hv as <-.
  pose proof (rs_old _ _ _ _ _ _ R b off Eo) as Hgone.
  assert (HF1 : Forall2 (fun r x => ref_value s1 r = Some x /\ ~ ref_inside s1 r o) first xs).
  { clear -HF Hown Hv0 R. revert R. generalize (length rs). intros n R.
    induction HF as [|r x l xs [A B] HF IH]; constructor; auto. eapply ref_resized; eauto. }
  destruct (mapped_ok _ _ Hm v1 Hv1) as [M1 M2].
  assert (Hl1 : length first < olen v1).
  { rewrite Hlen. unfold rs. rewrite app_length. simpl. lia. }
  destruct (oaddr v1) as [[b1 off1]|] eqn:Ea; [|rewrite M1 in Hl1; [lia|reflexivity]].
  destruct (put_elements_cells s1 o v1 b1 off1 Hv1 Ea first xs 0 s1) as [s2 [E2 [Sh Hc]]]; auto.
  { apply same_shape_refl. } { lia. }
  assert (Happ : forall l k t, put_elements o k (first ++ l) t =
            match put_elements o k first t with
            | ROk _ u => put_elements o (k + length first) l u
            | RThrow e u => RThrow e u | RUB w => RUB w end).
  { clear. induction first as [|r f IH]; intros l k t; simpl.
    - now rewrite Nat.add_0_r.
    - unfold bindM. destruct (sread r t) as [x u|e u|w]; auto.
      destruct (obj_put o k x u) as [[] u2|e u2|w]; auto.
      rewrite IH. now replace (S k + length f) with (k + S (length f)) by lia. }
  unfold rs. rewrite Happ, E2. simpl. unfold bindM, rd, bindM, rd_cell.
  destruct Sh as [_ [_ [_ Hb]]]. specialize (Hb b).
  assert (G : get_block s2 b = None).
  { unfold bsize in Hb. rewrite Hgone in Hb. simpl in Hb. destruct (get_block s2 b); [discriminate|reflexivity]. }
  rewrite G. reflexivity.
Qed.

(** ** Matrices *)

(** m = a with a one-dimensional array at position p of the memory of the matrix: value k goes to
    row k / cols, column k mod cols, in that order. *)
Theorem matrix_from_array_lands : forall (T : Type) (w : matw) (p : nat) (m : list T),
  m_fits w m -> p + wr w * wc w <= length m ->
  exists m', m_array w p (wr w * wc w) m = Ok m' /\
    lands (fun k => mpos w (k / wc w) (k mod wc w)) (map (fun k => RMem (p + k)) (seq 0 (wr w * wc w))) m m'.
Proof.
  intros T w p m Hf Hp. unfold m_fits in Hf. unfold m_array, require. rewrite Nat.eqb_refl. simpl.
  unfold loop. rewrite Nat.sub_0_r.
  rewrite (for_n_stores (reading_slot w) (fun i => RMem (p + i))).
  2:{ intros k m0 Hk. apply mput_reading. lia. }
  apply stores_lands.
  - intros j k H. rewrite map_length, seq_length in H. now apply reading_slot_inj.
  - intros k H. rewrite map_length, seq_length in H. pose proof (reading_slot_in w k H) as Hr.
    unfold reading_slot in *. lia.
  - intros r Hr. apply in_map_iff in Hr as [i [<- Hi]]. apply in_seq in Hi. simpl.
    apply nth_error_Some. lia.
Qed.
(** m = a with a[rows][cols], and m1 = m2 with another matrix over the same memory: the elements are
    stored in the order of the layout of the target. *)
Theorem matrix_from_2d_array_lands : forall (T : Type) (w : matw) (p : nat) (m : list T),
  m_fits w m -> p + wr w * wc w <= length m ->
  exists m', m_array2 w p (wr w) (wc w) m = Ok m' /\
    lands (fun k => wb w + k)
      (map (fun k => RMem (p + match wl w with
                               | row_major => k
                               | col_major => (k mod wr w) * wc w + k / wr w end))
           (seq 0 (wr w * wc w))) m m'.
Proof.
  intros T w p m Hf Hp. unfold m_fits in Hf. unfold m_array2, require. rewrite !Nat.eqb_refl. simpl.
  rewrite m_copy_stores. erewrite map_ext_in.
  - apply stores_lands.
    + intros; lia.
    + intros k H. rewrite map_length, seq_length in H. lia.
    + intros r Hr. apply in_map_iff in Hr as [k [<- Hk]]. apply in_seq in Hk. simpl.
      apply nth_error_Some. destruct (wl w); [lia|].
      assert (Hn : wr w <> 0) by lia.
      pose proof (Nat.mod_upper_bound k (wr w) Hn). pose proof (Nat.div_mod k (wr w) Hn).
      assert (k / wr w < wc w) by (apply Nat.div_lt_upper_bound; lia). nia.
  - intros k Hk. apply in_seq in Hk. unfold unindex. destruct (wl w); simpl; auto.
    do 2 f_equal. assert (Hn : wc w <> 0) by lia. pose proof (Nat.div_mod k (wc w) Hn). lia.
Qed.
Theorem matrix_from_view_lands : forall (T : Type) (w w2 : matw) (m : list T),
  m_fits w m -> m_fits w2 m -> wr w2 = wr w -> wc w2 = wc w ->
  exists m', m_mat w w2 m = Ok m' /\
    lands (fun k => wb w + k)
      (map (fun k => RMem (match wl w with
                           | row_major => mpos w2 (k / wc w) (k mod wc w)
                           | col_major => mpos w2 (k mod wr w) (k / wr w) end))
           (seq 0 (wr w * wc w))) m m'.
Proof.
  intros T w w2 m Hf Hf2 Er Ec. unfold m_fits in *. unfold m_mat, require. rewrite Er, Ec, !Nat.eqb_refl. simpl.
  rewrite m_copy_stores. erewrite map_ext_in.
  - apply stores_lands.
    + intros; lia.
    + intros k H. rewrite map_length, seq_length in H. lia.
    + intros r Hr. apply in_map_iff in Hr as [k [<- Hk]]. apply in_seq in Hk. simpl.
      apply nth_error_Some. rewrite Er, Ec in Hf2. unfold mpos, index. rewrite Er, Ec.
      assert (Hn : wr w <> 0) by lia. assert (Hc : wc w <> 0) by lia.
      pose proof (Nat.mod_upper_bound k (wr w) Hn). pose proof (Nat.div_mod k (wr w) Hn).
      assert (k / wr w < wc w) by (apply Nat.div_lt_upper_bound; lia).
      pose proof (Nat.mod_upper_bound k (wc w) Hc). pose proof (Nat.div_mod k (wc w) Hc).
      assert (k / wc w < wr w) by (apply Nat.div_lt_upper_bound; lia).
      destruct (wl w), (wl w2); nia.
  - intros k Hk. unfold unindex. destruct (wl w); reflexivity.
Qed.
Theorem matrix_list_by_value : forall (T : Type) (w : matw) (args : list (ref T)) (m : list T),
  m_fits w m -> length args = wr w * wc w -> sound_args args m ->
  exists m', m_list w args m = Ok m' /\ by_value (fun k => mpos w (k / wc w) (k mod wc w)) args m m'.
Proof.
  intros T w args m Hf Hl Hs. unfold m_fits in Hf. unfold m_list.
  destruct (copies_ok args m Hs) as [xs [E [L N]]]. rewrite E. simpl. unfold require.
  rewrite L, Hl, Nat.eqb_refl. simpl. unfold loop. rewrite Nat.sub_0_r.
  rewrite (for_n_stores (reading_slot w) (fun i => nth i (map RVal xs) (RMem 0))).
  2:{ intros k m0 Hk. destruct (nth_error xs k) as [x|] eqn:Ex; [|apply nth_error_None in Ex; lia].
      rewrite mput_reading by lia. f_equal. symmetry. apply nth_error_nth.
      rewrite nth_error_map, Ex. reflexivity. }
  assert (Em : map (fun i => nth i (map RVal xs) (RMem 0)) (seq 0 (wr w * wc w)) = map RVal xs).
  { rewrite <- Hl, <- L. rewrite <- (map_length RVal xs) at 1.
    apply nth_ext with (d := RMem 0) (d' := RMem 0); [now rewrite map_length, seq_length|].
    intros k Hk. rewrite map_length, seq_length in Hk.
    rewrite (nth_indep _ _ (nth 0 (map RVal xs) (RMem 0))) by (rewrite map_length, seq_length; lia).
    change (nth 0 (map RVal xs) (RMem 0)) with ((fun i => nth i (map RVal xs) (RMem 0)) 0) at 1.
    rewrite map_nth, seq_nth by lia. reflexivity. }
  rewrite Em.
  destruct (stores_lands (reading_slot w) (map RVal xs) m) as [m' [E' L']].
  - intros j k Hk. rewrite map_length in Hk. apply reading_slot_inj. lia.
  - intros k Hk. rewrite map_length in Hk. assert (Hk2 : k < wr w * wc w) by lia.
    pose proof (reading_slot_in w k Hk2). lia.
  - intros r Hr. apply in_map_iff in Hr as [x [<- _]]. discriminate.
  - exists m'. split; auto. eapply lands_values; eauto.
Qed.
Local Lemma same_elements {T : Type} : forall l l' : list T,
  (forall q, nth_error l q = nth_error l' q) -> l = l'.
Proof.
  induction l as [|x l IH]; intros [|y l'] H; auto.
  - specialize (H 0). discriminate.
  - specialize (H 0). discriminate.
  - pose proof (H 0) as H0. simpl in H0. injection H0 as ->. f_equal. apply IH. intros q. exact (H (S q)).
Qed.
(** The array a row-major matrix refers to may be assigned to it: nothing changes.  So may the
    two-dimensional array. *)
Theorem row_major_from_own_array : forall (T : Type) (w : matw) (m : list T),
  m_fits w m -> wl w = row_major ->
  m_array w (wb w) (wr w * wc w) m = Ok m /\ m_array2 w (wb w) (wr w) (wc w) m = Ok m.
Proof.
  intros T w m Hf El.
  assert (A : forall m' slot, lands slot (map (fun k => RMem (wb w + k)) (seq 0 (wr w * wc w))) m m' ->
              (forall k, k < wr w * wc w -> slot k = wb w + k) -> m' = m).
  { intros m' slot [L [K [V [S1 O1]]]] Hs. apply same_elements. intros q.
    destruct (in_dec Nat.eq_dec q (map slot (seq 0 (wr w * wc w)))) as [Hi|Hi].
    - apply in_map_iff in Hi as [k [<- Hk]]. apply in_seq in Hk. rewrite Hs by lia. rewrite <- Hs at 1 by lia.
      apply O1.
      + apply nth_error_seq_map. split; [lia|reflexivity].
      + intros [j [Hj Ej]]. rewrite Hs in Ej by lia. lia.
    - apply K. intros k Hk Ek. rewrite map_length, seq_length in Hk. apply Hi. apply in_map_iff.
      exists k. split; auto. apply in_seq. lia. }
  unfold m_fits in Hf. split.
  - destruct (matrix_from_array_lands T w (wb w) m) as [m' [E L]]; auto. rewrite E. f_equal.
    eapply A; eauto. intros k Hk. unfold mpos, index. rewrite El.
    assert (Hc : wc w <> 0) by lia. pose proof (Nat.div_mod k (wc w) Hc). lia.
  - destruct (matrix_from_2d_array_lands T w (wb w) m) as [m' [E L]]; auto. rewrite E. f_equal.
    rewrite El in L. eapply A; eauto.
Qed.

Local Lemma mirror {T : Type} (n b : nat) (m m' : list T) (pos : nat -> nat -> nat) :
  (forall x y, x < n -> y < n -> pos x y = b + (x * n + y)) ->
  (forall x y, x < n -> y < n -> x <= y -> nth_error m' (pos y x) = nth_error m (pos x y)) ->
  (forall x y, x < n -> y < n -> y < x -> nth_error m' (pos y x) = nth_error m' (pos x y)) ->
  forall x y, x < n -> y < n -> nth_error m' (pos x y) = nth_error m (pos (Nat.min x y) (Nat.max x y)).
Proof.
  intros _ A B x y Hx Hy. destruct (le_lt_dec y x) as [H|H].
  - rewrite Nat.min_r, Nat.max_l by lia. apply A; lia.
  - rewrite Nat.min_l, Nat.max_r by lia. rewrite B by lia. apply A; lia.
Qed.
Local Lemma cell_inj n x y x' y' : x < n -> y < n -> x' < n -> y' < n ->
  x * n + y = x' * n + y' -> x = x' /\ y = y'.
Proof. intros. assert (x = x') by nia. subst. split; auto. nia. Qed.

(** A column-major matrix over a square array, assigned from that array: the part below the diagonal
    is copied above it, whatever was above is lost.  The two-dimensional form of the same array
    copies the part above the diagonal below it. *)
Theorem col_major_from_own_array_refuted : forall (T : Type) (n b : nat) (m : list T),
  b + n * n <= length m ->
  let w := Matw b n n col_major in
  (exists m', m_array w b (n * n) m = Ok m' /\
     forall i j, i < n -> j < n -> m_at w m' i j = m_at w m (Nat.max i j) (Nat.min i j)) /\
  (exists m', m_array2 w b n n m = Ok m' /\
     forall i j, i < n -> j < n -> m_at w m' i j = m_at w m (Nat.min i j) (Nat.max i j)).
Proof.
  intros T n b m Hf w. split.
  - destruct (matrix_from_array_lands T w b m) as [m' [E L]]; auto.
    exists m'. split; [exact E|]. destruct L as [_ [_ [_ [S1 O1]]]]. simpl in *.
    assert (D : forall x y, x < n -> y < n -> (x * n + y) / n = x /\ (x * n + y) mod n = y).
    { intros x y Hx Hy. split.
      - rewrite Nat.div_add_l, Nat.div_small by lia. lia.
      - rewrite Nat.add_comm, Nat.mod_add, Nat.mod_small by lia. reflexivity. }
    intros i j Hi Hj. unfold m_at, mpos, index. simpl.
    rewrite (Nat.min_comm i j), (Nat.max_comm i j).
    apply (mirror n b m m' (fun x y => b + (x * n + y))) with (x := j) (y := i); auto.
    + intros x y Hx Hy Hxy.
      assert (Hk : x * n + y < n * n) by nia.
      assert (Hn : nth_error (map (fun k => @RMem T (b + k)) (seq 0 (n * n))) (x * n + y) = Some (RMem (b + (x * n + y))))
        by (apply nth_error_seq_map; auto).
      pose proof (O1 _ _ Hn) as Q. unfold mpos, index in Q. simpl in Q.
      destruct (D x y Hx Hy) as [D1 D2]. rewrite D1, D2 in Q. apply Q.
      intros [k [Hkk Ek]]. unfold mpos, index in Ek. simpl in Ek.
      assert (n <> 0) by lia. pose proof (Nat.mod_upper_bound k n H).
      assert (k / n < n) by (apply Nat.div_lt_upper_bound; lia).
      pose proof (Nat.div_mod k n H).
      destruct (cell_inj n (k mod n) (k / n) x y) as [E1 E2]; auto; [lia|]. nia.
    + intros x y Hx Hy Hxy.
      assert (Hk : x * n + y < n * n) by nia.
      assert (Hn : nth_error (map (fun k => @RMem T (b + k)) (seq 0 (n * n))) (x * n + y) = Some (RMem (b + (x * n + y))))
        by (apply nth_error_seq_map; auto).
      pose proof (S1 _ _ Hn) as Q. unfold mpos, index in Q. simpl in Q.
      destruct (D x y Hx Hy) as [D1 D2]. rewrite D1, D2 in Q. apply Q.
      exists (y * n + x). destruct (D y x Hy Hx) as [D3 D4]. unfold mpos, index. simpl. rewrite D3, D4. nia.
  - destruct (matrix_from_2d_array_lands T w b m) as [m' [E L]]; auto.
    exists m'. split; [exact E|]. destruct L as [_ [_ [_ [S1 O1]]]]. simpl in *.
    assert (D : forall x y, x < n -> y < n -> (x * n + y) / n = x /\ (x * n + y) mod n = y).
    { intros x y Hx Hy. split.
      - rewrite Nat.div_add_l, Nat.div_small by lia. lia.
      - rewrite Nat.add_comm, Nat.mod_add, Nat.mod_small by lia. reflexivity. }
    assert (N : forall x y, x < n -> y < n ->
      nth_error (map (fun k => @RMem T (b + (k mod n * n + k / n))) (seq 0 (n * n))) (x * n + y)
      = Some (RMem (b + (y * n + x)))).
    { intros x y Hx Hy. apply nth_error_seq_map. split; [nia|].
      destruct (D x y Hx Hy) as [D1 D2]. now rewrite D1, D2. }
    intros i j Hi Hj. unfold m_at, mpos, index. simpl.
    destruct (le_lt_dec j i) as [H|H].
    + rewrite Nat.min_r, Nat.max_l by lia. rewrite (O1 _ _ (N j i Hj Hi)); [reflexivity|].
      intros [k [Hk Ek]]. nia.
    + rewrite Nat.min_l, Nat.max_r by lia. rewrite (S1 _ _ (N j i Hj Hi)).
      * rewrite (O1 _ _ (N i j Hi Hj)); [reflexivity|]. intros [k [Hk Ek]]. nia.
      * exists (i * n + j). nia.
Qed.
(** A square matrix assigned from a matrix of the other layout over the same memory, which is its
    transpose, is not transposed: it becomes symmetric. *)
Theorem matrix_from_transposed_view_refuted : forall (T : Type) (n b : nat) (m : list T),
  b + n * n <= length m ->
  exists m', m_mat (Matw b n n row_major) (Matw b n n col_major) m = Ok m' /\
    forall i j, i < n -> j < n ->
      m_at (Matw b n n row_major) m' i j = m_at (Matw b n n row_major) m (Nat.max i j) (Nat.min i j) /\
      m_at (Matw b n n col_major) m i j = m_at (Matw b n n row_major) m j i.
Proof.
  intros T n b m Hf.
  destruct (matrix_from_view_lands T (Matw b n n row_major) (Matw b n n col_major) m) as [m' [E L]]; auto.
  exists m'. split; [exact E|]. destruct L as [_ [_ [_ [S1 O1]]]]. simpl in *.
  assert (N : forall x y, x < n -> y < n ->
    nth_error (map (fun k => @RMem T (mpos (Matw b n n col_major) (k / n) (k mod n))) (seq 0 (n * n))) (x * n + y)
    = Some (RMem (b + (y * n + x)))).
  { intros x y Hx Hy. apply nth_error_seq_map. split; [nia|]. unfold mpos, index. simpl.
    rewrite Nat.div_add_l, Nat.div_small by lia. rewrite (Nat.add_comm (x * n) y), Nat.mod_add, Nat.mod_small by lia.
    now rewrite Nat.add_0_r. }
  intros i j Hi Hj. unfold m_at. simpl. split; [|reflexivity].
  destruct (le_lt_dec i j) as [H|H].
  - rewrite Nat.max_r, Nat.min_l by lia. unfold mpos, index. simpl.
    rewrite (O1 _ _ (N i j Hi Hj)); [reflexivity|]. intros [k [Hk Ek]]. nia.
  - rewrite Nat.max_l, Nat.min_r by lia. unfold mpos, index. simpl.
    rewrite (S1 _ _ (N i j Hi Hj)).
    + rewrite (O1 _ _ (N j i Hj Hi)); [reflexivity|]. intros [k [Hk Ek]]. nia.
    + exists (j * n + i). nia.
Qed.

(** ** Quaternions *)

(** q.set(s, v) and q.set(v, s): the real part is stored first, then the vector part, in either
    storage order. *)
Theorem quaternion_set_lands : forall (T : Type) (o : order) (s : ref T) (v : list (ref T)) (m : list T),
  length m = 4 -> length v = 3 -> sound_args (s :: v) m ->
  exists m', q_setv o s v m = Ok m' /\ lands (fun k => nth k [oW o; oX o; oY o; oZ o] 4) (s :: v) m m'.
Proof.
  intros T o s v m Hm Hv Hs. destruct v as [|v0 [|v1 [|v2 [|]]]]; try discriminate.
  destruct (stores_lands (fun k => nth k [oW o; oX o; oY o; oZ o] 4) [s; v0; v1; v2] m) as [m' [E L]]; auto.
  - intros j k H. simpl in H. destruct k as [|[|[|[|]]]], j as [|[|[|]]]; try lia; destruct o; simpl; lia.
  - intros k H. rewrite Hm. simpl in H. destruct k as [|[|[|[|]]]]; try lia; destruct o; simpl; lia.
  - exists m'. split; [|exact L]. rewrite <- E. unfold q_setv. simpl.
    destruct (put_ref (oW o) s m) as [m1| |]; simpl; auto.
    destruct (put_ref (oX o) v0 m1) as [m2| |]; simpl; auto.
    destruct (put_ref (oY o) v1 m2) as [m3| |]; simpl; auto.
    destruct (put_ref (oZ o) v2 m3) as [m4| |]; simpl; auto.
Qed.
(** q.set(s, imaginary(q)) sets the real part to what s was worth and keeps the rest, also when s is an
    element of q. *)
Theorem quaternion_real_part_set : forall (T : Type) (o : order) (s : ref T) (m : list T),
  length m = 4 -> worth s m <> None ->
  exists m', q_setv o s (imag_refs o) m = Ok m' /\ length m' = 4 /\
    nth_error m' (oW o) = worth s m /\
    nth_error m' (oX o) = nth_error m (oX o) /\ nth_error m' (oY o) = nth_error m (oY o) /\
    nth_error m' (oZ o) = nth_error m (oZ o).
Proof.
  intros T o s m Hm Hs.
  destruct (quaternion_set_lands T o s (imag_refs o) m Hm eq_refl) as [m' [E L]].
  { intros r [<-|Hr]; auto. destruct m as [|a [|b [|c [|d [|]]]]]; try discriminate.
    destruct o, Hr as [<-|[<-|[<-|[]]]]; discriminate. }
  exists m'. split; auto. destruct L as [Ll [K [V [S1 O1]]]]. split; [congruence|].
  assert (N : forall k p, nth_error (s :: imag_refs o) k = Some (RMem p) ->
     ~ stored_before (fun k => nth k [oW o; oX o; oY o; oZ o] 4) k p ->
     nth_error m' (nth k [oW o; oX o; oY o; oZ o] 4) = nth_error m p) by exact O1.
  split; [|split; [|split]].
  - destruct s as [x|p].
    + exact (V 0 x eq_refl).
    + apply (N 0 p eq_refl). intros [j [Hj _]]. lia.
  - apply (N 1); [reflexivity|]. intros [j [Hj Ej]]. destruct j as [|[|[|]]], o; simpl in *; lia.
  - apply (N 2); [destruct o; reflexivity|]. intros [j [Hj Ej]]. destruct j as [|[|[|]]], o; simpl in *; lia.
  - apply (N 3); [destruct o; reflexivity|]. intros [j [Hj Ej]]. destruct j as [|[|[|]]], o; simpl in *; lia.
Qed.
(** q = {e0, e1, e2, e3} stores the four values in storage order, whatever they refer to. *)
Theorem quaternion_list_by_value : forall (T : Type) (o : order) (args : list (ref T)) (m : list T),
  length m = 4 -> length args = 4 -> sound_args args m ->
  exists m', q_list o args m = Ok m' /\ by_value (fun k => k) args m m'.
Proof.
  intros T o args m Hm Hl Hs. unfold q_list.
  destruct (copies_ok args m Hs) as [xs [E [L N]]]. rewrite E. simpl. unfold require.
  rewrite L, Hl. simpl. rewrite Hl in L.
  destruct xs as [|x0 [|x1 [|x2 [|x3 [|]]]]]; try discriminate.
  destruct m as [|a [|b [|c [|d [|]]]]]; try discriminate.
  destruct o; simpl; (eexists; split; [reflexivity|]); (split; [reflexivity|]); (split;
   [intros p Hp; destruct p as [|[|[|[|p]]]]; [exfalso; apply (Hp 0); [lia|reflexivity]
    |exfalso; apply (Hp 1); [lia|reflexivity]|exfalso; apply (Hp 2); [lia|reflexivity]
    |exfalso; apply (Hp 3); [lia|reflexivity]|destruct p; reflexivity]
   |intros k r Hr; rewrite (N _ _ Hr); destruct k as [|[|[|[|k]]]]; try reflexivity;
    assert (S (S (S (S k))) < length args) by (apply nth_error_Some; congruence); lia]).
Qed.
(** The two storage orders differ: q.set(s, v) with v a vector over the first three elements of q. *)
Theorem quaternion_set_own_memory_refuted : exists m : list Z, length m = 4 /\
  q_setv real_first (RMem 3) [RMem 0; RMem 1; RMem 2] m = Ok [4; 4; 4; 4]%Z /\
  q_setv imaginary_first (RMem 3) [RMem 0; RMem 1; RMem 2] m = Ok m /\ m = [1; 2; 3; 4]%Z.
Proof. exists [1; 2; 3; 4]%Z. repeat split. Qed.

(** ** Concrete cases *)
Example set_swap_ex : v_set (Vecw 0 3) [RMem 1; RMem 0; RMem 2] [1; 2; 3]%Z = Ok [2; 2; 3]%Z.
Proof. reflexivity. Qed.
Example list_swap_ex : v_list (Vecw 0 3) [RMem 1; RMem 0; RMem 2] [1; 2; 3]%Z = Ok [2; 1; 3]%Z.
Proof. reflexivity. Qed.
Example set_shift_ex : v_set (Vecw 1 3) [RMem 2; RMem 3; RVal 9%Z] [0; 1; 2; 3; 4]%Z = Ok [0; 2; 3; 9; 4]%Z.
Proof. reflexivity. Qed.
Example array_overlap_ex : v_array (Vecw 2 4) 0 4 [1; 2; 3; 4; 5; 6]%Z = Ok [1; 2; 1; 2; 1; 2]%Z.
Proof. reflexivity. Qed.
Example own_array_ex : m_array (Matw 0 3 3 col_major) 0 9 [1; 2; 3; 4; 5; 6; 7; 8; 9]%Z = Ok [1; 2; 3; 2; 5; 6; 3; 6; 9]%Z.
Proof. reflexivity. Qed.
Example own_array2_ex : m_array2 (Matw 0 3 3 col_major) 0 3 3 [1; 2; 3; 4; 5; 6; 7; 8; 9]%Z = Ok [1; 4; 7; 4; 5; 8; 7; 8; 9]%Z.
Proof. reflexivity. Qed.
Example own_rect_ex : m_array (Matw 1 2 3 col_major) 1 6 [0; 1; 2; 3; 4; 5; 6; 0]%Z = Ok [0; 1; 4; 2; 2; 2; 6; 0]%Z.
Proof. reflexivity. Qed.
Example view_ex : m_mat (Matw 0 2 2 row_major) (Matw 0 2 2 col_major) [1; 2; 3; 4]%Z = Ok [1; 3; 3; 4]%Z.
Proof. reflexivity. Qed.
Example mlist_ex : m_list (Matw 0 2 2 col_major) [RMem 0; RMem 1; RMem 2; RMem 3] [1; 2; 3; 4]%Z = Ok [1; 3; 2; 4]%Z.
Proof. reflexivity. Qed.
Example qset_ex : q_setv imaginary_first (RMem 0) (imag_refs imaginary_first) [1; 2; 3; 4]%Z = Ok [1; 2; 3; 1]%Z.
Proof. reflexivity. Qed.
Example qlist_ex : q_list real_first [RMem 3; RMem 2; RMem 1; RMem 0] [1; 2; 3; 4]%Z = Ok [4; 3; 2; 1]%Z.
Proof. reflexivity. Qed.
Example rearranged_ex : NoDup [1; 0; 2] /\ (forall j, In j [1; 0; 2] -> j < 3) /\ [1; 0; 2] <> seq 0 3.
Proof.
  split; [repeat constructor; simpl; intuition lia|]. split; [simpl; intuition lia|discriminate].
Qed.
(** v.set(v[1], v[0]) on a resizable vector of three elements. *)
Example resized_ex : exists s : state Z,
  owns_block s 0 /\ alloc_succeeds s /\ in_window s 0 0 1 /\ size_of s 0 = 3 /\
  assign_elements true 0 [SVal 5%Z; SCell 0 1] s = RUB UBMem.
Proof.
  exists (match ctor_list true [1; 2; 3]%Z (init []) with ROk _ s => s | _ => init [] end).
  split; [|split; [|split; [|split]]]; try reflexivity.
  - eexists. split; [reflexivity|]. split; [reflexivity|]. simpl. split; [reflexivity|]. eexists. split; reflexivity.
  - eexists _, 0. split; [reflexivity|]. split; [reflexivity|]. simpl. lia.
Qed.

(** ** Counts *)

(** A source with another number of elements is rejected before anything is read from it or stored. *)
Theorem own_calls_check_counts : forall (T : Type) (m : list T),
  (forall v p n, n <> vn v -> v_array v p n m = Throw EVectorSize) /\
  (forall v args, sound_args args m -> length args <> vn v -> v_list v args m = Throw EVectorSize) /\
  (forall w p n, n <> wr w * wc w -> m_array w p n m = Throw EIncompatibleMatrixSize) /\
  (forall w p r c, (r, c) <> (wr w, wc w) -> m_array2 w p r c m = Throw EIncompatibleMatrixSize) /\
  (forall w w2, (wr w2, wc w2) <> (wr w, wc w) -> m_mat w w2 m = Throw EIncompatibleMatrixSize) /\
  (forall w args, sound_args args m -> length args <> wr w * wc w -> m_list w args m = Throw EIncompatibleMatrixSize) /\
  (forall o s v, length v <> 3 -> q_setv o s v m = Throw EVectorSize) /\
  (forall o args, sound_args args m -> length args <> 4 -> q_list o args m = Throw EQuaternionSize).
Proof.
  intros T m.
  assert (two : forall a b c d : nat, (a, b) <> (c, d) -> Nat.eqb c a && Nat.eqb d b = false).
  { intros a b c d H. destruct (Nat.eqb_spec c a), (Nat.eqb_spec d b); subst; auto. congruence. }
  repeat split; intros.
  - unfold v_array, require. destruct (Nat.eqb_spec (vn v) n); [congruence|reflexivity].
  - unfold v_list, require. destruct (copies_ok args m) as [xs [E1 [E2 _]]]; auto. rewrite E1. simpl.
    destruct (Nat.eqb_spec (vn v) (length xs)); [congruence|reflexivity].
  - unfold m_array, require. destruct (Nat.eqb_spec (wr w * wc w) n); [congruence|reflexivity].
  - unfold m_array2, require. rewrite two; auto.
  - unfold m_mat, require. rewrite two; auto.
  - unfold m_list, require. destruct (copies_ok args m) as [xs [E1 [E2 _]]]; auto. rewrite E1. simpl.
    destruct (Nat.eqb_spec (wr w * wc w) (length xs)); [congruence|reflexivity].
  - unfold q_setv, require. destruct (Nat.eqb_spec (length v) 3); [congruence|reflexivity].
  - unfold q_list, require. destruct (copies_ok args m) as [xs [E1 [E2 _]]]; auto. rewrite E1. simpl.
    destruct (Nat.eqb_spec (length xs) 4); [congruence|reflexivity].
Qed.
Example own_calls_check_counts_case :
  v_array (Vecw 1 2) 0 3 [10; 20; 30] = Throw EVectorSize /\
  m_array2 (Matw 0 1 2 row_major) 0 2 1 [10; 20] = Throw EIncompatibleMatrixSize.
Proof. split; apply own_calls_check_counts; discriminate. Qed.

Print Assumptions vector_set_lands.
Print Assumptions vector_set_rejects.
Print Assumptions vector_set_by_value_iff.
Print Assumptions vector_rearranged_iff.
Print Assumptions vector_list_by_value.
Print Assumptions vector_from_overlapping_array.
Print Assumptions resized_set_of_own_element_refuted.
Print Assumptions matrix_from_array_lands.
Print Assumptions matrix_from_2d_array_lands.
Print Assumptions matrix_from_view_lands.
Print Assumptions matrix_list_by_value.
Print Assumptions row_major_from_own_array.
Print Assumptions col_major_from_own_array_refuted.
Print Assumptions matrix_from_transposed_view_refuted.
Print Assumptions quaternion_set_lands.
Print Assumptions quaternion_real_part_set.
Print Assumptions quaternion_list_by_value.
Print Assumptions quaternion_set_own_memory_refuted.
Print Assumptions own_calls_check_counts.
