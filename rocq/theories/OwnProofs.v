(** Proofs about OwnModel.v. *)
From Coq Require Import List Bool Arith Lia.
From Verif Require Import Base MatModel QuatModel OwnModel OwnSpec.
Import ListNotations.

Section Own.
Context {T : Type}.
Notation mem := (list T).

Fixpoint stores (slot : nat -> nat) (k : nat) (args : list (ref T)) (m : mem) : out mem :=
  match args with
  | [] => Ok m
  | r :: rs => m' <- put_ref (slot k) r m ;; stores slot (S k) rs m'
  end.

Lemma stores_app slot a1 : forall k a2 m,
  stores slot k (a1 ++ a2) m = (m' <- stores slot k a1 m ;; stores slot (k + length a1) a2 m').
Proof.
  induction a1 as [|r a1 IH]; intros k a2 m; simpl.
  - f_equal. now rewrite Nat.add_0_r.
  - destruct (put_ref (slot k) r m); simpl; auto. rewrite IH.
    replace (S k + length a1) with (k + S (length a1)) by lia. reflexivity.
Qed.

Lemma rread_worth (r : ref T) m : rread r m = match worth r m with Some x => Ok x | None => UB end.
Proof. destruct r; simpl; auto. Qed.
Lemma worth_len (r : ref T) (m m' : mem) : length m' = length m -> (worth r m' = None <-> worth r m = None).
Proof. intros L. destruct r; simpl; [split; discriminate|]. rewrite !nth_error_None, L. tauto. Qed.

Lemma poke_ok p (x : T) m : p < length m ->
  exists m', poke p x m = Ok m' /\ length m' = length m /\ nth_error m' p = Some x /\
             forall q, q <> p -> nth_error m' q = nth_error m q.
Proof.
  intros Hp. unfold poke. rewrite (proj2 (Nat.ltb_lt _ _) Hp). eexists. split; [reflexivity|].
  assert (Lf : length (firstn p m) = p) by (rewrite firstn_length; lia).
  split; [|split].
  - rewrite app_length. cbn [length]. rewrite firstn_length, skipn_length. lia.
  - rewrite nth_error_app2 by lia. now rewrite Lf, Nat.sub_diag.
  - intros q Hq. destruct (lt_dec q p) as [Hl|Hl].
    + rewrite nth_error_app1 by lia.
      rewrite <- (firstn_skipn p m) at 2. rewrite nth_error_app1 by lia. reflexivity.
    + rewrite nth_error_app2 by lia. rewrite Lf.
      destruct (q - p) as [|d] eqn:E; [lia|]. cbn [nth_error].
      rewrite <- (firstn_skipn (S p) m) at 2.
      assert (L2 : length (firstn (S p) m) = S p) by (rewrite firstn_length; lia).
      rewrite nth_error_app2 by lia. rewrite L2. f_equal. lia.
Qed.

Lemma stores_lands slot (args : list (ref T)) m :
  (forall j k, j < k < length args -> slot j <> slot k) ->
  (forall k, k < length args -> slot k < length m) ->
  sound_args args m ->
  exists m', stores slot 0 args m = Ok m' /\ lands slot args m m'.
Proof.
  induction args as [|r args IH] using rev_ind; intros Hinj Hin Hs.
  - exists m. split; [reflexivity|]. split; [reflexivity|]. split; [reflexivity|].
    split; [|split]; intros k z Hz; destruct k; discriminate.
  - rewrite app_length in *. simpl in *.
    destruct IH as [m1 [E1 [L1 [K1 [V1 [S1 O1]]]]]].
    { intros j k H. apply Hinj. lia. }
    { intros k H. apply Hin. lia. }
    { intros q Hq. apply Hs. apply in_or_app. now left. }
    assert (Hr : worth r m1 <> None).
    { intros Hn. apply (Hs r); [apply in_or_app; right; now left|].
      now apply (worth_len r m m1 L1). }
    destruct (worth r m1) as [x|] eqn:Ex; [|easy].
    destruct (poke_ok (slot (length args)) x m1) as [m' [E' [L' [P' Q']]]].
    { rewrite L1. apply Hin. lia. }
    exists m'. split.
    { rewrite stores_app, E1. simpl. unfold put_ref. rewrite rread_worth, Ex. simpl.
      now rewrite E'. }
    assert (Hq : forall k, k < length args -> nth_error m' (slot k) = nth_error m1 (slot k)).
    { intros k Hk. apply Q'. apply Hinj. lia. }
    split; [congruence|]. split; [|split; [|split]].
    + intros p Hp. rewrite app_length in Hp. simpl in Hp.
      rewrite Q' by (intros Hpe; apply (Hp (length args)); [lia|now symmetry]). apply K1.
      intros k Hk. apply Hp. lia.
    + intros k y Hk. destruct (lt_dec k (length args)) as [Hl|Hl].
      * rewrite nth_error_app1 in Hk by lia. rewrite Hq by lia. now apply V1.
      * rewrite nth_error_app2 in Hk by lia.
        destruct (k - length args) as [|d] eqn:Ed; [|destruct d; discriminate].
        injection Hk as ->. replace k with (length args) by lia. simpl in Ex. congruence.
    + intros k p Hk [j [Hj Hp]]. destruct (lt_dec k (length args)) as [Hl|Hl].
      * rewrite nth_error_app1 in Hk by lia. rewrite Hq by lia. subst p. rewrite Hq by lia.
        apply S1; auto. exists j. auto.
      * rewrite nth_error_app2 in Hk by lia.
        destruct (k - length args) as [|d] eqn:Ed; [|destruct d; discriminate].
        injection Hk as ->. assert (k = length args) as -> by lia. subst p.
        simpl in Ex. rewrite P', Hq by lia. auto.
    + intros k p Hk Hn. destruct (lt_dec k (length args)) as [Hl|Hl].
      * rewrite nth_error_app1 in Hk by lia. rewrite Hq by lia. now apply O1.
      * rewrite nth_error_app2 in Hk by lia.
        destruct (k - length args) as [|d] eqn:Ed; [|destruct d; discriminate].
        injection Hk as ->. assert (k = length args) as -> by lia.
        simpl in Ex. rewrite P', <- Ex. apply K1. intros k Hk Hp. apply Hn. exists k. auto.
Qed.

Lemma put_ref_len p (r : ref T) m m' : put_ref p r m = Ok m' -> length m' = length m.
Proof.
  unfold put_ref. destruct (rread r m) as [x| |]; try discriminate. simpl. intros H.
  destruct (lt_dec p (length m)) as [Hl|Hl].
  - destruct (poke_ok p x m Hl) as [m2 [E [L _]]]. congruence.
  - unfold poke in H. destruct (Nat.ltb_spec p (length m)); [lia|discriminate].
Qed.

Lemma stores_unsound slot (args : list (ref T)) : forall k m,
  (exists r, In r args /\ worth r m = None) ->
  stores slot k args m = UB.
Proof.
  induction args as [|a args IH]; intros k m [r [Hin Hn]]; [destruct Hin|]. simpl.
  unfold put_ref at 1. rewrite rread_worth. destruct (worth a m) as [x|] eqn:Ea; [|reflexivity]. simpl.
  destruct (poke (slot k) x m) as [m1|e|] eqn:Ep; simpl; auto.
  - apply IH. destruct Hin as [->|Hin]; [congruence|]. exists r. split; auto.
    apply (worth_len r m m1); auto.
    eapply put_ref_len with (p := slot k) (r := a). unfold put_ref.
    rewrite rread_worth, Ea. exact Ep.
  - unfold poke in Ep. destruct (slot k <? length m); discriminate.
Qed.

(** By value. *)
Definition harmless (slot : nat -> nat) (args : list (ref T)) : Prop :=
  forall j k p, j < k -> nth_error args k = Some (RMem p) -> slot j = p -> nth_error args j = Some (RMem p).

Lemma lands_by_value slot (args : list (ref T)) m m' :
  lands slot args m m' -> harmless slot args -> by_value slot args m m'.
Proof.
  intros [L [K [V [S1 O1]]]] Hh. split; auto. split; auto.
  assert (A : forall k r, nth_error args k = Some r -> nth_error m' (slot k) = worth r m).
  { intros k. induction k as [k IH] using (well_founded_induction lt_wf). intros r Hr.
    destruct r as [x|p]; [now apply V|]. simpl.
    destruct (in_dec Nat.eq_dec p (map slot (seq 0 k))) as [Hi|Hi].
    - apply in_map_iff in Hi as [j [Ej Hj]]. apply in_seq in Hj.
      rewrite (S1 k p Hr) by (exists j; split; auto; lia).
      assert (Hlt : j < k) by lia.
      pose proof (Hh j k p Hlt Hr Ej) as Hp.
      pose proof (IH j Hlt _ Hp) as Hv. simpl in Hv. congruence.
    - apply O1; auto. intros [j [Hj Ej]]. apply Hi. apply in_map_iff. exists j. split; auto.
      apply in_seq. lia. }
  exact A.
Qed.

Lemma two_contents (a b : T) (L p : nat) : a <> b ->
  exists m : mem, length m = L /\ (p < L -> nth_error m p = Some a) /\
    forall q, q <> p -> q < L -> nth_error m q = Some b.
Proof.
  intros Hab. exists (map (fun i => if Nat.eqb i p then a else b) (seq 0 L)).
  split; [now rewrite map_length, seq_length|].
  assert (N : forall q, q < L -> nth_error (map (fun i => if Nat.eqb i p then a else b) (seq 0 L)) q
                                 = Some (if Nat.eqb q p then a else b)).
  { intros q Hq. rewrite nth_error_map.
    rewrite (nth_error_nth' _ 0) by (rewrite seq_length; lia). simpl.
    now rewrite seq_nth. }
  split.
  - intros Hp. rewrite N by auto. now rewrite Nat.eqb_refl.
  - intros q Hq Hl. rewrite N by auto. destruct (Nat.eqb_spec q p); [lia|reflexivity].
Qed.

Lemma by_value_harmless slot (args : list (ref T)) L (a b : T) : a <> b ->
  (forall j k, j < k < length args -> slot j <> slot k) ->
  (forall k, k < length args -> slot k < L) ->
  (forall p, In (RMem p) args -> p < L) ->
  (forall m m', length m = L -> stores slot 0 args m = Ok m' -> by_value slot args m m') ->
  harmless slot args.
Proof.
  intros Hab Hinj Hin Hs Hall j k p Hjk Hk Hp.
  assert (Hkl : k < length args) by (apply nth_error_Some; congruence).
  assert (HpL : p < L) by (apply Hs; eapply nth_error_In; eauto).
  assert (Hsound : forall m : mem, length m = L -> sound_args args m).
  { intros m Hm r Hr. destruct r as [x|q]; simpl; [discriminate|].
    apply nth_error_Some. rewrite Hm. auto. }
  destruct (nth_error args j) as [r|] eqn:Ej; [|apply nth_error_None in Ej; lia].
  (* in every memory the argument j is worth the contents of p *)
  assert (Key : forall m : mem, length m = L -> worth r m = nth_error m p).
  { intros m Hm. destruct (stores_lands slot args m) as [m' [E Hl]]; auto.
    { intros i Hi. rewrite Hm. auto. }
    destruct (Hall m m' Hm E) as [_ [_ B]].
    pose proof (B _ _ Ej) as B1. pose proof (B _ _ Hk) as B2. simpl in B2.
    destruct Hl as [_ [_ [_ [S1 _]]]].
    rewrite (S1 k p Hk) in B2 by (exists j; auto). rewrite Hp in B1. congruence. }
  destruct r as [x|q].
  - exfalso. apply Hab.
    destruct (two_contents a b L p) as [m [Hm [Ha _]]]; auto.
    destruct (two_contents b a L p) as [n [Hn [Hb _]]]; auto.
    pose proof (Key m Hm) as Hc. pose proof (Key n Hn) as Hd. simpl in Hc, Hd.
    rewrite (Ha HpL) in Hc. rewrite (Hb HpL) in Hd. congruence.
  - destruct (Nat.eq_dec q p) as [->|Hq]; auto. exfalso.
    destruct (two_contents a b L p) as [m [Hm [Ha Hb]]]; auto. pose proof (Key m Hm) as Hc. simpl in Hc.
    rewrite (Ha HpL), Hb in Hc; auto; [congruence|]. apply Hs. eapply nth_error_In; eauto.
Qed.

(** The calls as sequences of stores. *)
Lemma v_pack_stores (v : vecw) : forall rs i m,
  i + length rs <= vn v -> v_pack v i rs m = stores (fun k => vb v + k) i rs m.
Proof.
  induction rs as [|r rs IH]; intros i m H; simpl in *; auto.
  unfold vput. rewrite (proj2 (Nat.ltb_lt i (vn v))) by lia.
  destruct (put_ref (vb v + i) r m); simpl; auto. apply IH. lia.
Qed.

Lemma for_n_stores slot (src : nat -> ref T) (f : nat -> mem -> out mem) : forall n i m,
  (forall k m, i <= k < i + n -> f k m = put_ref (slot k) (src k) m) ->
  for_n n i f m = stores slot i (map src (seq i n)) m.
Proof.
  induction n as [|n IH]; intros i m H; simpl; auto. rewrite H by lia.
  destruct (put_ref (slot i) (src i) m); simpl; auto. apply IH. intros k m0 Hk. apply H. lia.
Qed.

Lemma nth_error_seq_map (src : nat -> ref T) n k r :
  nth_error (map src (seq 0 n)) k = Some r <-> k < n /\ r = src k.
Proof.
  split.
  - intros H. assert (k < length (map src (seq 0 n))) by (apply nth_error_Some; congruence).
    rewrite map_length, seq_length in *. split; auto.
    rewrite nth_error_map in H. rewrite (nth_error_nth' _ 0) in H by (rewrite seq_length; lia).
    simpl in H. rewrite seq_nth in H by lia. simpl in H. congruence.
  - intros [Hk ->]. rewrite nth_error_map.
    rewrite (nth_error_nth' _ 0) by (rewrite seq_length; lia). simpl. now rewrite seq_nth.
Qed.

Lemma copies_ok (rs : list (ref T)) m : sound_args rs m ->
  exists xs, copies rs m = Ok xs /\ length xs = length rs /\
             forall k r, nth_error rs k = Some r -> worth r m = nth_error xs k.
Proof.
  induction rs as [|r rs IH]; intros Hs.
  - exists []. split; auto. split; auto. intros k r H. destruct k; discriminate.
  - destruct IH as [xs [E [L N]]]; [intros q Hq; apply Hs; now right|].
    pose proof (Hs r (or_introl eq_refl)) as Hr. simpl. rewrite rread_worth.
    destruct (worth r m) as [x|] eqn:Ex; [|easy]. simpl. rewrite E. simpl.
    exists (x :: xs). split; auto. split; [simpl; lia|].
    intros k q Hk. destruct k; simpl in *; [congruence|auto].
Qed.
Lemma copies_unsound (rs : list (ref T)) m : (exists r, In r rs /\ worth r m = None) -> copies rs m = UB.
Proof.
  induction rs as [|a rs IH]; intros [r [Hin Hn]]; [destruct Hin|]. simpl. rewrite rread_worth.
  destruct (worth a m) eqn:Ea; [|reflexivity]. simpl. rewrite IH; [reflexivity|].
  destruct Hin as [->|Hin]; [congruence|]. exists r. auto.
Qed.

Lemma lands_values slot (xs : list T) args m m' : length xs = length args ->
  (forall k r, nth_error args k = Some r -> worth r m = nth_error xs k) ->
  lands slot (map RVal xs) m m' -> by_value slot args m m'.
Proof.
  intros L N [L' [K [V _]]]. split; auto. split.
  - intros p Hp. apply K. rewrite map_length, L. exact Hp.
  - intros k r Hr. rewrite (N _ _ Hr).
    assert (k < length xs) by (rewrite L; apply nth_error_Some; congruence).
    destruct (nth_error xs k) as [x|] eqn:Ex; [|apply nth_error_None in Ex; lia].
    apply V. rewrite nth_error_map, Ex. reflexivity.
Qed.

(** Matrices: the loop nest in storage order. *)
Lemma for_n_app {Q : Type} (f : nat -> Q -> out Q) : forall a b i s,
  for_n (a + b) i f s = (s' <- for_n a i f s ;; for_n b (i + a) f s').
Proof.
  induction a as [|a IH]; intros b i s; simpl.
  - now rewrite Nat.add_0_r.
  - destruct (f i s); simpl; auto. rewrite IH. now replace (S i + a) with (i + S a) by lia.
Qed.
Lemma nest_flat {Q : Type} (c : nat) (g : nat -> nat -> Q -> out Q) (h : nat -> Q -> out Q) :
  (forall i j s, j < c -> g i j s = h (i * c + j) s) ->
  forall r i s, for_n r i (fun i => for_n c 0 (g i)) s = for_n (r * c) (i * c) h s.
Proof.
  intros H. induction r as [|r IH]; intros i s; simpl; auto.
  rewrite for_n_app.
  assert (E : for_n c 0 (g i) s = for_n c (i * c) h s).
  { assert (G : forall n j s, j + n <= c -> for_n n j (g i) s = for_n n (i * c + j) h s).
    { induction n as [|n IHn]; intros j t Hj; simpl; auto. rewrite H by lia.
      destruct (h (i * c + j) t); simpl; auto. rewrite IHn by lia. f_equal. lia. }
    specialize (G c 0 s). rewrite Nat.add_0_r in G. apply G. lia. }
  rewrite E. destruct (for_n c (i * c) h s); simpl; auto. rewrite IH. f_equal. lia.
Qed.

Lemma m_copy_stores (w : matw) (src : nat -> nat -> ref T) m :
  m_copy w src m =
  stores (fun k => wb w + k) 0
         (map (fun k => let ij := unindex (wl w) (wr w) (wc w) k in src (fst ij) (snd ij))
              (seq 0 (wr w * wc w))) m.
Proof.
  unfold m_copy, unindex. destruct (wl w) eqn:El; unfold loop; rewrite !Nat.sub_0_r.
  - rewrite (nest_flat (wc w) (fun i j => mput w i j (src i j))
               (fun k m => mput w (k / wc w) (k mod wc w) (src (k / wc w) (k mod wc w)) m)).
    + simpl. apply for_n_stores. intros k m0 Hk. simpl. unfold mput, mpos, index. rewrite El.
      assert (wc w <> 0) by lia.
      rewrite (proj2 (Nat.ltb_lt _ _) (Nat.mod_upper_bound k (wc w) H)).
      rewrite (proj2 (Nat.ltb_lt (k / wc w) (wr w))) by (apply Nat.div_lt_upper_bound; lia).
      simpl. f_equal. rewrite (Nat.div_mod k (wc w)) at 3 by auto. lia.
    + intros i j s Hj. assert (wc w <> 0) by lia.
      rewrite Nat.div_add_l, Nat.div_small, Nat.add_0_r by lia.
      rewrite Nat.add_comm, Nat.mod_add, Nat.mod_small by lia. reflexivity.
  - rewrite (nest_flat (wr w) (fun j i => mput w i j (src i j))
               (fun k m => mput w (k mod wr w) (k / wr w) (src (k mod wr w) (k / wr w)) m)).
    + simpl. rewrite (Nat.mul_comm (wc w)). apply for_n_stores. intros k m0 Hk. simpl.
      unfold mput, mpos, index. rewrite El.
      assert (wr w <> 0) by lia.
      rewrite (proj2 (Nat.ltb_lt _ _) (Nat.mod_upper_bound k (wr w) H)).
      rewrite (proj2 (Nat.ltb_lt (k / wr w) (wc w))) by (apply Nat.div_lt_upper_bound; lia).
      simpl. f_equal. rewrite (Nat.div_mod k (wr w)) at 3 by auto. lia.
    + intros i j s Hj. assert (wr w <> 0) by lia.
      rewrite Nat.div_add_l, Nat.div_small, Nat.add_0_r by lia.
      rewrite Nat.add_comm, Nat.mod_add, Nat.mod_small by lia. reflexivity.
Qed.

(** The slot of the k-th value in reading order. *)
Definition reading_slot (w : matw) (k : nat) : nat := mpos w (k / wc w) (k mod wc w).
Lemma reading_slot_in w k : k < wr w * wc w -> reading_slot w k < wb w + wr w * wc w.
Proof.
  intros H. unfold reading_slot, mpos, index.
  assert (Hc : wc w <> 0) by lia.
  pose proof (Nat.mod_upper_bound k (wc w) Hc).
  assert (k / wc w < wr w) by (apply Nat.div_lt_upper_bound; lia).
  pose proof (Nat.div_mod k (wc w) Hc). destruct (wl w); nia.
Qed.
Lemma reading_slot_inj w j k : j < k < wr w * wc w -> reading_slot w j <> reading_slot w k.
Proof.
  intros H E. unfold reading_slot, mpos, index in E.
  assert (Hc : wc w <> 0) by lia.
  pose proof (Nat.mod_upper_bound k (wc w) Hc). pose proof (Nat.mod_upper_bound j (wc w) Hc).
  assert (k / wc w < wr w) by (apply Nat.div_lt_upper_bound; lia).
  assert (j / wc w < wr w) by (apply Nat.div_lt_upper_bound; lia).
  pose proof (Nat.div_mod k (wc w) Hc). pose proof (Nat.div_mod j (wc w) Hc).
  destruct (wl w).
  - assert (j = k) by nia. lia.
  - assert (j mod wc w = k mod wc w) by nia. assert (j / wc w = k / wc w) by nia. lia.
Qed.
Lemma mput_reading w k (r : ref T) m : k < wr w * wc w ->
  mput w (k / wc w) (k mod wc w) r m = put_ref (reading_slot w k) r m.
Proof.
  intros H. assert (Hc : wc w <> 0) by lia. unfold mput.
  rewrite (proj2 (Nat.ltb_lt _ _) (Nat.mod_upper_bound k (wc w) Hc)).
  rewrite (proj2 (Nat.ltb_lt (k / wc w) (wr w))) by (apply Nat.div_lt_upper_bound; lia).
  reflexivity.
Qed.
End Own.
