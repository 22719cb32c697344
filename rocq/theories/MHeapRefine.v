(** The memory model of dynamic matrices against the model of matrix values. *)
From Coq Require Import List ZArith Bool Arith Lia.
From Verif Require Import Base BaseFacts HeapModel HeapSpec HeapFacts HeapProofs HeapAssign Ownership
  MatModel MatSpec MatProofs MHeapModel MHeapSpec MHeapFacts MHeapSafe.
Import ListNotations.

Section MHeapRefine.
Context {T : Type}.
Notation mstate := (mstate T).
Notation hexpr := (hexpr T).
Notation N := (N T).

(** Target o of a loop that started in s0, at state s, against the value m. *)
Definition tracks (o : nat) (s0 s : mstate) (m : fmat T) : Prop :=
  stores o s0 s /\ same_matrix (matrix_of s o) m.

Lemma forN_sim (R : mstate -> fmat T -> Prop) (f : nat -> N unit) (g : nat -> fmat T -> out (fmat T)) n :
  forall i s m m', R s m ->
  (forall k s m m', i <= k < i + n -> R s m -> g k m = Ok m' -> exists s', f k s = NOk tt s' /\ R s' m') ->
  for_n n i g m = Ok m' -> exists s', forN n i f s = NOk tt s' /\ R s' m'.
Proof.
  induction n as [|n IH]; intros i s m m' H0 Hs E; simpl in *.
  - injection E as <-. exists s. auto.
  - destruct (g i m) as [m1|e|] eqn:E1; try discriminate.
    destruct (Hs i s m m1) as [s1 [F1 H1]]; auto; [lia|]. rewrite (bindN_ok _ _ _ _ _ F1).
    apply (IH (S i) s1 m1 m'); auto. intros k sk mk mk' Hk Hr Eg. apply (Hs k sk mk mk'); auto. lia.
Qed.

Lemma h_each_sim (s : mstate) o m (f : nat -> nat -> N unit) g m' :
  memory_sound s -> exists_m s o -> same_matrix (matrix_of s o) m ->
  (forall i j sk mk mk', i < drows (m_dim s o) -> j < dcols (m_dim s o) -> tracks o s sk mk ->
     g i j mk = Ok mk' -> exists s', f i j sk = NOk tt s' /\ tracks o s s' mk') ->
  each m g = Ok m' -> exists s', h_each o f s = NOk tt s' /\ tracks o s s' m'.
Proof.
  intros Hs He Hm Hf. unfold h_each, each, loop. rewrite (bindN_ok _ _ s _ s) by (apply get_dim_ok; auto).
  destruct Hm as [A [B [C D]]]. simpl in A, B, C. rewrite <- A, <- B, <- C, !Nat.sub_0_r.
  assert (T0 : tracks o s s m).
  { split; [apply stores_refl|]. repeat split; simpl; auto. }
  destruct (dlay (m_dim s o)); apply (forN_sim (tracks o s)); auto;
    intros a sa ma ma' Ha Sa; apply (forN_sim (tracks o s)); auto; intros b sb mb mb' Hb Sb; apply Hf; auto; lia.
Qed.

Lemma tracks_put (s sk : mstate) o m m' i j x : memory_sound s -> exists_m s o -> tracks o s sk m ->
  wr m i j x = Ok m' -> exists s', h_put o i j x sk = NOk tt s' /\ tracks o s s' m'.
Proof.
  intros Hs He [Hst Hm] Hw. unfold wr in Hw. destruct Hm as [A [B [C D]]]. simpl in A, B, C, D.
  assert (St := Hst). destruct St as [St _]. assert (Hd := steady_dim s sk o St). rewrite Hd in A, B, C, D.
  destruct (Nat.ltb_spec i (fr m)), (Nat.ltb_spec j (fc m)); try discriminate. injection Hw as <-.
  destruct (stores_put o s sk i j x) as [s' [E [Hst' Hc]]]; auto.
  { repeat split; auto; lia. }
  exists s'. split; auto. split; auto. assert (St' := Hst'). destruct St' as [St' _].
  assert (Hd' := steady_dim s s' o St').
  unfold matrix_of, same_matrix; simpl. rewrite Hd'. repeat split; auto.
  intros i' j' Hi' Hj'. unfold upd. specialize (D i' j' Hi' Hj'). rewrite <- D.
  unfold element. rewrite Hd', Hd. cbv zeta. rewrite Hc. unfold pos.
  destruct (Nat.eq_dec _ _) as [Eq|Ne].
  - destruct (index_inj _ _ _ i' j' i j Hi' Hj' ltac:(lia) ltac:(lia) Eq) as [-> ->].
    now rewrite !Nat.eqb_refl.
  - destruct (Nat.eqb_spec i' i) as [->|]; [|reflexivity]. destruct (Nat.eqb_spec j' j) as [->|]; [congruence|reflexivity].
Qed.

Lemma get_of_rd (s : mstate) o m i j x : memory_sound s -> exists_m s o -> same_matrix (matrix_of s o) m ->
  rd m i j = Ok x -> h_get o i j s = NOk x s.
Proof.
  intros Hs He [A [B [C D]]] Hr. apply rd_inv in Hr as [Hi [Hj Hx]]. simpl in *.
  rewrite <- A in Hi. rewrite <- B in Hj. assert (H := h_get_ok s o i j Hs). rewrite D, Hx in H by auto.
  apply H. repeat split; auto.
Qed.

(** The operands other than the target have kept their value since s. *)
Lemma read_sim (s sk : mstate) o e m i j x : memory_sound sk -> exists_m sk o -> operands sk e ->
  same_matrix (matrix_of sk o) m -> kept_except [o] s sk -> (forall o', exists_m sk o' -> exists_m s o') ->
  x_get m (by_value s o e) i j = Ok x -> h_read e i j sk = NOk x sk.
Proof.
  intros Hs He Ho Hm Hk Hx. revert i j x. induction e; simpl; intros i j x E.
  - destruct (Nat.eqb_spec o0 o) as [->|Hne].
    + simpl in E. eapply get_of_rd; eauto.
    + simpl in E. assert (X : exists_m sk o0) by (apply Ho; simpl; auto).
      destruct (Hk o0) as [_ H]; [auto|simpl; intuition|].
      eapply get_of_rd; eauto.
  - apply rd_inv in E as [Hi [Hj E]]. simpl in *. injection E as <-.
    apply Nat.ltb_lt in Hi. apply Nat.ltb_lt in Hj. now rewrite Hi, Hj.
  - destruct (x_get m (by_value s o e) i j) as [y|ex|] eqn:Ey; try discriminate. injection E as <-.
    rewrite (bindN_ok _ _ _ _ _ (IHe Ho _ _ _ Ey)). reflexivity.
  - assert (H1 : operands sk e1) by (intros o' Hin; apply Ho; simpl; apply in_or_app; auto).
    assert (H2 : operands sk e2) by (intros o' Hin; apply Ho; simpl; apply in_or_app; auto).
    destruct (x_get m (by_value s o e1) i j) as [y|ex|] eqn:Ey; try discriminate.
    destruct (x_get m (by_value s o e2) i j) as [z|ex|] eqn:Ez; try discriminate. injection E as <-.
    rewrite (bindN_ok _ _ _ _ _ (IHe1 H1 _ _ _ Ey)), (bindN_ok _ _ _ _ _ (IHe2 H2 _ _ _ Ez)). reflexivity.
  - destruct (x_get m (by_value s o e) i j) as [y|ex|] eqn:Ey; try discriminate. injection E as <-.
    rewrite (bindN_ok _ _ _ _ _ (IHe Ho _ _ _ Ey)). reflexivity.
  - apply IHe; auto.
Qed.

Lemma dims_by_value (s : mstate) o e :
  hdim s e = (x_rows (matrix_of s o) (by_value s o e), x_cols (matrix_of s o) (by_value s o e)).
Proof.
  induction e; simpl; auto.
  - destruct (Nat.eqb_spec o0 o) as [->|]; reflexivity.
  - rewrite IHe. reflexivity.
Qed.

Lemma fitting_dec (s : mstate) e : fitting s e \/ ~ fitting s e.
Proof.
  induction e; simpl; try tauto.
  destruct (hdim s e1) as [r1 c1], (hdim s e2) as [r2 c2].
  destruct (Nat.eq_dec r1 r2) as [->|], (Nat.eq_dec c1 c2) as [->|];
    try (right; intros [_ [_ H]]; congruence). tauto.
Qed.

Lemma build_by_value (s : mstate) o e :
  (fitting s e -> x_build (matrix_of s o) (by_value s o e) = Ok tt) /\
  (~ fitting s e -> x_build (matrix_of s o) (by_value s o e) = Throw EIncompatibleMatrixSize).
Proof.
  induction e; simpl; auto.
  - destruct (Nat.eqb o0 o); simpl; tauto.
  - tauto.
  - destruct IHe1 as [A1 B1], IHe2 as [A2 B2].
    assert (D1 := dims_by_value s o e1). assert (D2 := dims_by_value s o e2).
    split.
    + intros [F1 [F2 E]]. rewrite A1, A2 by auto. rewrite D1, D2 in E. injection E as -> ->.
      simpl. now rewrite !Nat.eqb_refl.
    + intros Hn. destruct (fitting_dec s e1) as [F1|F1]; [rewrite A1 by auto|now rewrite B1].
      destruct (fitting_dec s e2) as [F2|F2]; [rewrite A2 by auto|simpl; now rewrite B2].
      simpl. unfold require. destruct (Nat.eqb_spec (x_rows (matrix_of s o) (by_value s o e1)) (x_rows (matrix_of s o) (by_value s o e2)));
        [|reflexivity]. destruct (Nat.eqb_spec (x_cols (matrix_of s o) (by_value s o e1)) (x_cols (matrix_of s o) (by_value s o e2)));
        [|reflexivity]. exfalso. apply Hn. split; auto. split; auto. congruence.
Qed.

(** resize in memory and as a value *)
Lemma resize_sim (s s1 : mstate) o v r c : memory_sound s -> nth_error (objs (heap s)) o = Some (Some v) ->
  mresized s s1 o r c (Nat.min (olen v) (r * c)) ->
  same_matrix (matrix_of s1 o) (reshape (matrix_of s o) r c).
Proof.
  intros Hs Hv R. unfold matrix_of, same_matrix, reshape; simpl. rewrite (mr_dim _ _ _ _ _ _ R). simpl.
  repeat split; auto. intros i j Hi Hj. unfold element at 1. rewrite (mr_dim _ _ _ _ _ _ R). cbn [drows dcols dlay].
  set (k := index (dlay (m_dim s o)) r c i j). cbv zeta.
  assert (Hk : k < r * c) by (apply index_bound; auto).
  assert (Hz : olen v = drows (m_dim s o) * dcols (m_dim s o)) by (apply Hs; auto).
  destruct (Nat.ltb_spec k (drows (m_dim s o) * dcols (m_dim s o))) as [H|H].
  - rewrite (mr_keep _ _ _ _ _ _ R) by lia.
    assert (Hu := index_unindex (dlay (m_dim s o)) (drows (m_dim s o)) (dcols (m_dim s o)) k H).
    destruct (unindex _ _ _ k) as [i' j']. destruct Hu as [_ [_ Hu]]. unfold element. rewrite Hu. reflexivity.
  - rewrite (mr_rest _ _ _ _ _ _ R) by lia. reflexivity.
Qed.

Lemma resize_value (m : fmat T) r c : fk m = MDynamic -> check_or_resize m r c = Ok (reshape m r c).
Proof.
  intros K. unfold check_or_resize, MatModel.resize. rewrite K.
  rewrite !(proj2 (Z.leb_le _ _)) by lia. simpl. now rewrite !Nat2Z.id.
Qed.

(** Both assignments are: build, take the size, run a loop whose body is simulated. *)
Lemma loop_refines (s : mstate) o e (f : nat -> nat -> N unit) g :
  memory_sound s -> exists_m s o -> operands s e ->
  (forall s1 sk mk mk' i j, kept_except [o] s sk -> (forall o', exists_m sk o' <-> exists_m s o') ->
     memory_sound sk -> memory_sound s1 -> exists_m s1 o ->
     tracks o s1 sk mk -> g i j mk = Ok mk' -> exists s', f i j sk = NOk tt s' /\ tracks o s1 s' mk') ->
  match (x_build (matrix_of s o) (by_value s o e) ;;;
         m1 <- MatModel.check_or_resize (matrix_of s o) (x_rows (matrix_of s o) (by_value s o e))
                 (x_cols (matrix_of s o) (by_value s o e)) ;;
         each m1 g) with
  | Ok m' =>
      let y := bindN (h_build e) (fun _ => bindN (h_dims e) (fun p =>
        bindN (h_resize true o (Z.of_nat (fst p)) (Z.of_nat (snd p))) (fun _ => h_each o f))) s in
      (exists s', y = NThrow EBadAlloc s' /\ only_sched s s' /\ ~ alloc_ok s /\
         x_rows (matrix_of s o) (by_value s o e) * x_cols (matrix_of s o) (by_value s o e)
         <> drows (m_dim s o) * dcols (m_dim s o)) \/
      exists s', y = NOk tt s' /\
      memory_sound s' /\ (forall o', exists_m s' o' <-> exists_m s o') /\
      same_matrix (matrix_of s' o) m' /\ kept_except [o] s s'
  | Throw ex =>
      each (reshape (matrix_of s o) (x_rows (matrix_of s o) (by_value s o e))
                 (x_cols (matrix_of s o) (by_value s o e))) g <> Throw ex ->
      bindN (h_build e) (fun _ => bindN (h_dims e) (fun p =>
        bindN (h_resize true o (Z.of_nat (fst p)) (Z.of_nat (snd p))) (fun _ => h_each o f))) s = NThrow ex s
  | UB => True
  end.
Proof.
  intros Hs He Ho Hstep. destruct (build_by_value s o e) as [B1 B2].
  destruct (h_build_ok s e Hs Ho) as [[F Eb]|[F Eb]].
  2:{ rewrite B2 by auto. simpl. intros _. apply bindN_throw; auto. }
  rewrite B1 by auto. simpl. rewrite resize_value by reflexivity. simpl.
  set (r := x_rows (matrix_of s o) (by_value s o e)). set (c := x_cols (matrix_of s o) (by_value s o e)).
  destruct (each (reshape (matrix_of s o) r c) g) as [m'|ex|] eqn:Ee; auto; [|tauto].
  rewrite (bindN_ok _ _ _ _ _ Eb), (bindN_ok _ _ _ _ _ (h_dims_ok s e Hs Ho)).
  rewrite (dims_by_value s o e). fold r c. cbn [fst snd].
  destruct He as [v Hv].
  destruct (h_resize_spec s o r c v Hs Hv) as [[s' [E [Hsc [Hna Hne]]]]|[s1 [E R]]].
  { left. exists s'. rewrite (bindN_throw _ _ _ _ _ E). split; auto. split; auto. split; auto.
    destruct Hs as [_ [_ Hz]]. rewrite <- (Hz o v Hv). exact Hne. }
  right. rewrite (bindN_ok _ _ _ _ _ E).
  assert (He1 : exists_m s1 o) by (apply (mr_exists _ _ _ _ _ _ R); exists v; auto).
  assert (Hs1 := mr_sound _ _ _ _ _ _ R).
  assert (Kr := mresized_kept _ _ _ _ _ _ R).
  destruct (h_each_sim s1 o (reshape (matrix_of s o) r c) f g m') as [s2 [E2 [Hst Hm]]]; auto.
  - eapply resize_sim; eauto.
  - intros i j sk mk mk' Hi Hj Ht Hg. assert (St := Ht). destruct St as [St _]. 
    apply (Hstep s1 sk mk mk'); auto.
    + eapply kept_trans; eauto. apply stores_kept; auto.
    + intros o'. destruct St as [St _]. rewrite (steady_exists s1 sk) by auto. apply (mr_exists _ _ _ _ _ _ R).
    + destruct St as [St _]. eapply steady_sound; eauto.
  - exists s2. split; auto. assert (St := Hst). destruct St as [St _]. split; [eapply steady_sound; eauto|].
    split; [intros o'; rewrite (steady_exists s1 s2) by auto; apply (mr_exists _ _ _ _ _ _ R)|].
    split; auto. eapply kept_trans; eauto. apply stores_kept; auto.
Qed.

(** Assignment loops do not throw. *)
Lemma for_n_throw {S} (f : nat -> S -> out S) n : forall i s e,
  for_n n i f s = Throw e -> exists k s1, f k s1 = Throw e.
Proof.
  induction n as [|n IH]; simpl; intros i s e H; [discriminate|].
  destruct (f i s) as [s1|e1|] eqn:E; simpl in H; try discriminate; eauto. injection H as <-. eauto.
Qed.
Lemma each_throw (m : fmat T) g e : each m g = Throw e -> exists i j s, g i j s = Throw e.
Proof.
  unfold each, loop. destruct (fl m); intros H; apply for_n_throw in H as [a [sa H]];
    apply for_n_throw in H as [b [sb H]]; eauto.
Qed.
Lemma x_get_throw (m : fmat T) x : forall i j e, x_get m x i j <> Throw e.
Proof.
  assert (Hrd : forall (m : fmat T) i j e, rd m i j <> Throw e).
  { intros m0 i j e. unfold rd. destruct (_ && _); [|discriminate]. destruct (fe m0 i j); discriminate. }
  assert (Hv : forall (l : list T) i e, vget l i <> Throw e).
  { intros l i e. unfold vget. destruct (nth_error l i); discriminate. }
  induction x as [|a|f x IH|f x1 IH1 x2 IH2|f x IH k|x IH|f u w]; simpl; intros i j e; auto.
  - specialize (IH i j). destruct (x_get m x i j); simpl; try discriminate. intros [= <-]. eapply IH; eauto.
  - specialize (IH1 i j). destruct (x_get m x1 i j); simpl; try discriminate; [|intros [= <-]; eapply IH1; eauto].
    specialize (IH2 i j). destruct (x_get m x2 i j); simpl; try discriminate. intros [= <-]. eapply IH2; eauto.
  - specialize (IH i j). destruct (x_get m x i j); simpl; try discriminate. intros [= <-]. eapply IH; eauto.
  - specialize (Hv u i) as H1. destruct (vget u i); simpl; try discriminate; [|intros [= <-]; eapply H1; eauto].
    specialize (Hv w j) as H2. destruct (vget w j); simpl; try discriminate. intros [= <-]. eapply H2; eauto.
Qed.
Lemma wr_throw (m : fmat T) i j x e : wr m i j x <> Throw e.
Proof. unfold wr. destruct (_ && _); discriminate. Qed.
Lemma rd_throw (m : fmat T) i j e : rd m i j <> Throw e.
Proof. apply (x_get_throw m XSelf). Qed.

Lemma for_n_keeps {S} (P : S -> Prop) (f : nat -> S -> out S) n :
  (forall k s s', P s -> f k s = Ok s' -> P s') ->
  forall i s s', P s -> for_n n i f s = Ok s' -> P s'.
Proof.
  intros Hf. induction n as [|n IH]; simpl; intros i s s' Hp H; [injection H as <-; auto|].
  destruct (f i s) as [s1|e1|] eqn:E; simpl in H; try discriminate. apply (IH (Datatypes.S i) s1 s'); eauto.
Qed.
Lemma each_size (m m' : fmat T) r c g : each (reshape m r c) g = Ok m' ->
  (forall i j s s', g i j s = Ok s' -> fr s' = fr s /\ fc s' = fc s) -> fr m' = r /\ fc m' = c.
Proof.
  intros E Hg. set (P := fun m : fmat T => fr m = r /\ fc m = c).
  assert (Hp : forall i j s s', P s -> g i j s = Ok s' -> P s').
  { intros i j s s' [A B] H. destruct (Hg _ _ _ _ H) as [C D]. split; congruence. }
  assert (P0 : P (reshape m r c)) by (split; reflexivity).
  change (P m'). unfold each, loop in E.
  destruct (fl (reshape m r c)).
  - refine (for_n_keeps P _ _ _ _ _ _ P0 E). intros k s s' Ps H.
    exact (for_n_keeps P _ _ (fun j => Hp k j) _ _ _ Ps H).
  - refine (for_n_keeps P _ _ _ _ _ _ P0 E). intros k s s' Ps H.
    exact (for_n_keeps P _ _ (fun i => Hp i k) _ _ _ Ps H).
Qed.
Lemma wr_size (m m' : fmat T) i j x : wr m i j x = Ok m' -> fr m' = fr m /\ fc m' = fc m.
Proof. unfold wr. destruct (_ && _); [|discriminate]. intros [= <-]. auto. Qed.

Definition refines_call (s : mstate) (o : nat) (x : out (fmat T)) (y : nres T unit) : Prop :=
  match x with
  | Ok m' =>
      (exists s', y = NThrow EBadAlloc s' /\ only_sched s s' /\ ~ alloc_ok s /\
         fr m' * fc m' <> drows (m_dim s o) * dcols (m_dim s o)) \/
      exists s', y = NOk tt s' /\ memory_sound s' /\
      (forall o', exists_m s' o' <-> exists_m s o') /\ same_matrix (matrix_of s' o) m' /\ kept_except [o] s s'
  | Throw ex => y = NThrow ex s
  | UB => True
  end.

Lemma assign_refines_l (s : mstate) o e : memory_sound s -> exists_m s o -> operands s e ->
  refines_call s o (m_assign (matrix_of s o) (by_value s o e)) (h_assign true o e s).
Proof.
  intros Hs He Ho.
  assert (L := loop_refines s o e (fun i j => bindN (h_read e i j) (fun x => h_put o i j x))
    (fun i j m => x <- x_get m (by_value s o e) i j ;; wr m i j x) Hs He Ho).
  unfold refines_call, h_assign, m_assign in *.
  lapply L; clear L.
  - intros L. destruct (x_build _ _ ;;; _) as [m'|ex|] eqn:Em; auto.
    { destruct L as [[s' [E1 [E2 [E3 E4]]]]|L]; auto. left. exists s'. split; auto. split; auto. split; auto.
      destruct (x_build _ _); try discriminate. simpl in Em. rewrite resize_value in Em by reflexivity. simpl in Em.
      destruct (each_size _ _ _ _ _ Em) as [-> ->]; auto.
      intros i j s1 s2. destruct (x_get s1 _ i j); try discriminate. simpl. apply wr_size. }
    apply L. intros H.
    apply each_throw in H as [i [j [m H]]]. assert (X := x_get_throw m (by_value s o e) i j).
    destruct (x_get m (by_value s o e) i j); simpl in H; try discriminate; [eapply wr_throw; eauto|].
    eapply X; eauto.
  - intros s1 sk mk mk' i j Hk Hx Hsk Hs1 He1 Ht Hg.
    destruct (x_get mk (by_value s o e) i j) as [x|ex|] eqn:Ex; try discriminate. simpl in Hg.
    rewrite (bindN_ok _ _ sk x sk).
    + eapply tracks_put; eauto.
    + eapply read_sim; eauto.
      * apply Hx; auto.
      * intros o' Hin. apply Hx; auto.
      * apply Ht.
      * intros o' X. apply Hx; auto.
Qed.

Lemma compound_refines_l (s : mstate) op o e : memory_sound s -> exists_m s o -> operands s e ->
  refines_call s o (m_compound op (matrix_of s o) (by_value s o e)) (h_compound true op o e s).
Proof.
  intros Hs He Ho.
  assert (L := loop_refines s o e
    (fun i j => bindN (h_get o i j) (fun x => bindN (h_read e i j) (fun y => h_put o i j (op x y))))
    (fun i j m => x <- rd m i j ;; y <- x_get m (by_value s o e) i j ;; wr m i j (op x y)) Hs He Ho).
  unfold refines_call, h_compound, m_compound in *.
  lapply L; clear L.
  - intros L. destruct (x_build _ _ ;;; _) as [m'|ex|] eqn:Em; auto.
    { destruct L as [[s' [E1 [E2 [E3 E4]]]]|L]; auto. left. exists s'. split; auto. split; auto. split; auto.
      destruct (x_build _ _); try discriminate. simpl in Em. rewrite resize_value in Em by reflexivity. simpl in Em.
      destruct (each_size _ _ _ _ _ Em) as [-> ->]; auto.
      intros i j s1 s2. destruct (rd s1 i j); try discriminate. simpl.
      destruct (x_get s1 _ i j); try discriminate. simpl. apply wr_size. }
    apply L. intros H.
    apply each_throw in H as [i [j [m H]]]. assert (X := x_get_throw m (by_value s o e) i j).
    assert (Y := rd_throw m i j). destruct (rd m i j); simpl in H; try discriminate; [|eapply Y; eauto].
    destruct (x_get m (by_value s o e) i j); simpl in H; try discriminate; [eapply wr_throw; eauto|].
    eapply X; eauto.
  - intros s1 sk mk mk' i j Hk Hx Hsk Hs1 He1 Ht Hg.
    destruct (rd mk i j) as [y|ex|] eqn:Ey; try discriminate. simpl in Hg.
    destruct (x_get mk (by_value s o e) i j) as [x|ex|] eqn:Ex; try discriminate. simpl in Hg.
    rewrite (bindN_ok _ _ sk y sk).
    2:{ eapply get_of_rd; eauto; [apply Hx; auto|apply Ht]. }
    rewrite (bindN_ok _ _ sk x sk).
    + eapply tracks_put; eauto.
    + eapply read_sim; eauto.
      * apply Hx; auto.
      * intros o' Hin. apply Hx; auto.
      * apply Ht.
      * intros o' X. apply Hx; auto.
Qed.

Lemma scale_refines_l (s : mstate) op o k : memory_sound s -> exists_m s o ->
  refines_call s o (m_scale op (matrix_of s o) (RVal k)) (h_scale op o k s).
Proof.
  intros Hs He. unfold refines_call, m_scale, h_scale.
  match goal with |- match ?x with _ => _ end => destruct x as [m'|ex|] eqn:E end; auto.
  - right. destruct (h_each_sim s o (matrix_of s o)
      (fun i j => bindN (h_get o i j) (fun x => h_put o i j (op x k)))
      (fun i j s => x <- rd s i j;; k <- mread s (RVal k);; wr s i j (op x k)) m' Hs He (same_matrix_refl _)) with (2 := E)
      as [s' [-> [St Hm]]].
    + intros i j sk mk mk' Hi Hj Ht Hg. simpl in Hg.
      assert (St := Ht). destruct St as [[St _] _].
      destruct (rd mk i j) as [y|ex|] eqn:Ey; try discriminate. simpl in Hg.
      rewrite (bindN_ok _ _ sk y sk); [eapply tracks_put; eauto|].
      eapply get_of_rd; eauto; [eapply steady_sound; eauto|apply (steady_exists s sk); auto|apply Ht].
    + exists s'. split; auto. assert (K := stores_kept o s s' St). destruct St as [St _].
      split; [eapply steady_sound; eauto|]. split; [intros o'; apply (steady_exists s s'); auto|]. auto.
  - exfalso. apply each_throw in E as [i [j [m H]]]. assert (Y := rd_throw m i j).
    simpl in H. destruct (rd m i j); simpl in H; try discriminate; [eapply wr_throw; eauto|eapply Y; eauto].
Qed.

Lemma generate_refines_l (s : mstate) o f : memory_sound s -> exists_m s o ->
  refines_call s o (generate (matrix_of s o) f) (h_generate o f s).
Proof.
  intros Hs He. unfold refines_call, generate, h_generate.
  match goal with |- match ?x with _ => _ end => destruct x as [m'|ex|] eqn:E end; auto.
  - right. destruct (h_each_sim s o (matrix_of s o) (fun i j => h_put o i j (f i j))
      (fun i j s => wr s i j (f i j)) m' Hs He (same_matrix_refl _))
      with (2 := E) as [s' [-> [St Hm]]].
    + intros i j sk mk mk' Hi Hj Ht Hg. eapply tracks_put; eauto.
    + exists s'. split; auto. assert (K := stores_kept o s s' St). destruct St as [St _].
      split; [eapply steady_sound; eauto|]. split; [intros o'; apply (steady_exists s s'); auto|]. auto.
  - exfalso. apply each_throw in E as [i [j [m H]]]. eapply wr_throw; eauto.
Qed.

(** ** Values *)
Lemma shape_by_value (s : mstate) o e :
  x_shape (drows (m_dim s o), dcols (m_dim s o)) (by_value s o e) = h_shape s e.
Proof.
  induction e; simpl; auto.
  - destruct (Nat.eqb_spec o0 o) as [->|]; reflexivity.
  - now rewrite IHe1, IHe2.
  - now rewrite IHe.
Qed.
Lemma val_by_value (s : mstate) o e : forall i j,
  x_val (element s o) (by_value s o e) i j = h_val s e i j.
Proof.
  induction e; simpl; intros i j; auto.
  - destruct (Nat.eqb_spec o0 o) as [->|]; reflexivity.
  - now rewrite IHe.
  - now rewrite IHe1, IHe2.
  - now rewrite IHe.
Qed.
Lemma free_by_value (s : mstate) o e : ~ In o (h_objs e) -> self_free (by_value s o e).
Proof.
  induction e; simpl; intros H; auto.
  - destruct (Nat.eqb_spec o0 o) as [->|]; simpl; tauto.
  - split; [apply IHe1|apply IHe2]; intros X; apply H, in_or_app; auto.
Qed.
Lemma straight_by_value (s : mstate) o e : ~ under_transpose o e -> self_straight false (by_value s o e).
Proof.
  induction e; simpl; intros H; auto.
  - destruct (Nat.eqb_spec o0 o) as [->|]; simpl; auto.
  - split; [apply IHe1|apply IHe2]; tauto.
  - apply x_free_straight. apply free_by_value; auto.
Qed.
Lemma shape_fitting (s : mstate) e r c : h_shape s e = Some (r, c) -> fitting s e /\ hdim s e = (r, c).
Proof.
  revert r c. induction e; simpl; intros r0 c0 H; try (injection H as <- <-; auto); auto.
  - destruct (h_shape s e1) as [[r1 c1]|]; [|discriminate]. destruct (h_shape s e2) as [[r2 c2]|]; [|discriminate].
    destruct (Nat.eqb_spec r1 r2); [|discriminate]. destruct (Nat.eqb_spec c1 c2); [|discriminate]. simpl in H.
    injection H as <- <-. subst. destruct (IHe1 _ _ eq_refl), (IHe2 _ _ eq_refl). repeat split; auto. congruence.
  - destruct (h_shape s e) as [[r1 c1]|]; [|discriminate]. injection H as <- <-.
    destruct (IHe _ _ eq_refl) as [A B]. split; auto. now rewrite B.
Qed.

Lemma own_or_free (s : mstate) o e r c : h_shape s e = Some (r, c) -> ~ under_transpose o e ->
  self_free (by_value s o e) \/ (drows (m_dim s o) = r /\ dcols (m_dim s o) = c).
Proof.
  intros H Hu. destruct (in_dec Nat.eq_dec o (h_objs e)) as [Hin|Hin].
  - right. destruct (shape_fitting s e r c H) as [F D]. rewrite (leaf_dim s o e F Hin Hu) in D. injection D; auto.
  - left. apply free_by_value; auto.
Qed.
End MHeapRefine.
