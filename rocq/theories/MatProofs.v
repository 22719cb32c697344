(** Proofs about MatModel.v. *)
From Coq Require Import List ZArith Bool Arith Lia.
From Verif Require Import Base BaseFacts MatModel MatSpec.
Import ListNotations.

(** ** index / unindex *)
Lemma index_bound l r c i j : i < r -> j < c -> index l r c i j < r * c.
Proof. intros Hi Hj. destruct l; simpl; nia. Qed.
Lemma index_inj l r c i j i' j' : i < r -> j < c -> i' < r -> j' < c ->
  index l r c i j = index l r c i' j' -> i = i' /\ j = j'.
Proof.
  intros Hi Hj Hi' Hj' H. destruct l; simpl in H.
  - assert (i = i') by (destruct (Nat.lt_trichotomy i i') as [|[|]]; auto; nia). subst. split; auto; lia.
  - assert (j = j') by (destruct (Nat.lt_trichotomy j j') as [|[|]]; auto; nia). subst. split; auto; lia.
Qed.
Lemma unindex_index l r c i j : i < r -> j < c -> unindex l r c (index l r c i j) = (i, j).
Proof.
  intros Hi Hj. destruct l; simpl; f_equal.
  - rewrite Nat.div_add_l by lia. rewrite Nat.div_small by auto. lia.
  - rewrite Nat.add_comm, Nat.mod_add by lia. apply Nat.mod_small; auto.
  - rewrite Nat.add_comm, Nat.mod_add by lia. apply Nat.mod_small; auto.
  - rewrite Nat.div_add_l by lia. rewrite Nat.div_small by auto. lia.
Qed.
Lemma index_unindex l r c k : k < r * c ->
  let '(i, j) := unindex l r c k in i < r /\ j < c /\ index l r c i j = k.
Proof.
  intros H. assert (r <> 0 /\ c <> 0) as [Hr Hc] by (destruct r, c; lia).
  destruct l; simpl.
  - repeat split.
    + apply Nat.div_lt_upper_bound; lia.
    + apply Nat.mod_upper_bound; auto.
    + rewrite (Nat.div_mod k c) at 3 by auto. lia.
  - repeat split.
    + apply Nat.mod_upper_bound; auto.
    + apply Nat.div_lt_upper_bound; lia.
    + rewrite (Nat.div_mod k r) at 3 by auto. lia.
Qed.

(** ** Storage refines the (row, column) view *)
Section Refine.
Context {T : Type}.

Definition refines (m : mat T) (f : fmat T) : Prop :=
  mr m = fr f /\ mc m = fc f /\ mb m = fb f /\ ml m = fl f /\ mk m = fk f /\
  length (md m) = mr m * mc m /\
  forall i j, i < mr m -> j < mc m ->
    nth_error (md m) (index (ml m) (mr m) (mc m) i j) = Some (fe f i j).

Definition view (m : mat T) : fmat T :=
  FM (mr m) (mc m) (mb m) (ml m) (mk m) (fun i j =>
    match nth_error (md m) (index (ml m) (mr m) (mc m) i j) with Some c => c | None => None end).
Lemma view_refines m : full m -> refines m (view m).
Proof.
  intros H. repeat split; auto. intros i j Hi Hj. simpl.
  destruct (nth_error (md m) _) eqn:E; auto. apply nth_error_None in E.
  assert (index (ml m) (mr m) (mc m) i j < mr m * mc m) by (apply index_bound; auto). unfold full in H. lia.
Qed.

Lemma refines_get m f i j : refines m f -> mget m i j = rd f i j.
Proof.
  intros (A & B & _ & _ & _ & _ & H). unfold mget, rd. rewrite <- A, <- B.
  destruct (Nat.ltb_spec i (mr m)), (Nat.ltb_spec j (mc m)); simpl; auto.
  rewrite H by auto. destruct (fe f i j); auto.
Qed.
Lemma refines_put m f i j x : refines m f ->
  match mput m i j x, wr f i j x with
  | Ok m', Ok f' => refines m' f'
  | UB, UB => True
  | _, _ => False
  end.
Proof.
  intros (A & B & C & D & E & L & H). unfold mput, wr. rewrite <- A, <- B.
  destruct (Nat.ltb_spec i (mr m)), (Nat.ltb_spec j (mc m)); simpl; auto.
  destruct (list_put (md m) (index (ml m) (mr m) (mc m) i j) (Some x)) as [d|] eqn:Ed.
  - repeat split; simpl; auto; try congruence.
    + rewrite (list_put_length _ _ _ _ Ed). auto.
    + intros i' j' Hi' Hj'. rewrite (nth_error_list_put _ _ _ _ _ Ed). unfold upd.
      destruct (Nat.eq_dec (index (ml m) (mr m) (mc m) i' j') (index (ml m) (mr m) (mc m) i j)) as [Ei|Ei].
      * destruct (index_inj _ _ _ _ _ _ _ Hi' Hj' H0 H1 Ei) as [-> ->]. now rewrite !Nat.eqb_refl.
      * destruct (Nat.eqb_spec i' i), (Nat.eqb_spec j' j); simpl; try (apply H; auto).
        subst. congruence.
  - apply list_put_None in Ed. assert (H2 := index_bound (ml m) (mr m) (mc m) i j H0 H1). lia.
Qed.

Lemma reshape_refines m f r c d : refines m f ->
  d = firstn (r * c) (md m) ++ repeat None (r * c - length (md m)) ->
  refines (Mat r c (mb m) (ml m) (mk m) d) (reshape f r c).
Proof.
  intros (A & B & C & D & E & L & H) ->. repeat split; simpl; auto.
  - rewrite app_length, firstn_length, repeat_length. lia.
  - intros i j Hi Hj. rewrite <- D, <- A, <- B.
    set (k := index (ml m) r c i j). assert (Hk : k < r * c) by (apply index_bound; auto).
    destruct (Nat.ltb_spec k (mr m * mc m)) as [Hlt|Hge].
    + assert (Hu := index_unindex (ml m) (mr m) (mc m) k Hlt).
      destruct (unindex (ml m) (mr m) (mc m) k) as [i' j']. destruct Hu as [Hi' [Hj' Hx]].
      rewrite nth_error_app1 by (rewrite firstn_length; lia).
      rewrite <- (H i' j' Hi' Hj'), Hx.
      rewrite <- (firstn_skipn (r * c) (md m)) at 2. rewrite nth_error_app1; auto.
      rewrite firstn_length. lia.
    + rewrite nth_error_app2 by (rewrite firstn_length; lia). rewrite firstn_length.
      replace (k - Nat.min (r * c) (length (md m))) with (k - length (md m)) by lia.
      apply nth_error_repeat. lia.
Qed.
Lemma refines_resize m f rows cols : refines m f ->
  match mresize m rows cols, resize f rows cols with
  | Ok m', Ok f' => refines m' f'
  | Throw e, Throw e' => e = e'
  | UB, UB => True
  | _, _ => False
  end.
Proof.
  intros R. assert (R' := R). destruct R' as (A & B & C & D & E & L & H).
  unfold mresize, resize. rewrite <- E. destruct (mk m) eqn:K; auto.
  - destruct (Z.leb 0 rows); simpl; auto. destruct (Z.leb 0 cols); simpl; auto.
    rewrite <- K. apply reshape_refines; auto.
  - destruct (Z.leb 0 rows); simpl; auto. destruct (Z.leb 0 cols); simpl; auto.
    rewrite <- A, <- B.
    destruct (Nat.eqb_spec (mr m * mc m) (Z.to_nat rows * Z.to_nat cols)) as [Q|Q]; simpl; auto.
    rewrite <- K. apply reshape_refines; auto.
    rewrite L, Q, Nat.sub_diag, app_nil_r. symmetry. apply firstn_all2. lia.
Qed.

(** ** Clients *)
Lemma client_refines {A} (p : client (T:=T) A) : forall m f1,
  refines m f1 -> forall m2 f2, refines m2 f2 ->
  (forall i j, rd f1 i j = rd f2 i j) -> fr f1 = fr f2 -> fc f1 = fc f2 ->
  match run_client p m, run_client p m2 with
  | Ok (a, m'), Ok (a', m2') => a = a' /\ exists f1' f2', refines m' f1' /\ refines m2' f2' /\
      fr f1' = fr f2' /\ fc f1' = fc f2' /\ (forall i j, rd f1' i j = rd f2' i j)
  | UB, UB => True
  | _, _ => False
  end.
Proof.
  induction p as [a|i j k IH|i j x k IH|k IH]; intros m f1 R1 m2 f2 R2 E Er Ec; simpl.
  - split; auto. exists f1, f2. auto.
  - rewrite (refines_get _ _ i j R1), (refines_get _ _ i j R2), <- E.
    destruct (rd f1 i j) eqn:Q; simpl; auto.
    + eapply IH; eauto.
    + unfold rd in Q. destruct (_ && _); [destruct (fe f1 i j)|]; discriminate.
  - assert (P1 := refines_put m f1 i j x R1). assert (P2 := refines_put m2 f2 i j x R2).
    unfold wr in P1, P2. rewrite Er, Ec in P1.
    destruct ((i <? fr f2) && (j <? fc f2)) eqn:Hin.
    + destruct (mput m i j x) as [n1| |]; try tauto. destruct (mput m2 i j x) as [n2| |]; try tauto. simpl.
      eapply IH; eauto. intros i' j'. unfold rd; simpl. unfold upd.
      specialize (E i' j'). unfold rd in E. rewrite Er, Ec in E.
      destruct ((i' <? fr f2) && (j' <? fc f2)); auto. destruct ((i' =? i) && (j' =? j)); auto.
    + destruct (mput m i j x); try tauto. destruct (mput m2 i j x); simpl; tauto.
  - assert (R1' := R1). assert (R2' := R2). destruct R1' as (Q1 & Q2 & _). destruct R2' as (S1 & S2 & _).
    replace (mr m2) with (mr m) by congruence. replace (mc m2) with (mc m) by congruence.
    eapply IH; eauto.
Qed.

Lemma layout_client_l {A} (p : client (T:=T) A) m1 m2 :
  full m1 -> full m2 -> same_elements m1 m2 ->
  match run_client p m1, run_client p m2 with
  | Ok (a1, m1'), Ok (a2, m2') => a1 = a2 /\ same_elements m1' m2'
  | UB, UB => True
  | _, _ => False
  end.
Proof.
  intros F1 F2 (A1 & A2 & A3).
  assert (V1 := view_refines m1 F1). assert (V2 := view_refines m2 F2).
  assert (Q := client_refines p m1 _ V1 m2 _ V2).
  assert (E : forall i j, rd (view m1) i j = rd (view m2) i j).
  { intros i j. now rewrite <- (refines_get _ _ i j V1), <- (refines_get _ _ i j V2). }
  specialize (Q E A1 A2).
  destruct (run_client p m1) as [[a1 m1']| |]; destruct (run_client p m2) as [[a2 m2']| |]; auto.
  destruct Q as [Qa (f1 & f2 & R1 & R2 & Er & Ec & E')]. split; auto.
  assert (R1' := R1). assert (R2' := R2).
  destruct R1' as (B1 & B2 & _). destruct R2' as (B3 & B4 & _).
  split; [congruence|]. split; [congruence|]. intros i j.
  now rewrite (refines_get _ _ i j R1), (refines_get _ _ i j R2).
Qed.
End Refine.

(** ** Layout-ordered loops *)
Section Each.
Context {T : Type}.

Definition dims (m s : fmat T) : Prop :=
  fr s = fr m /\ fc s = fc m /\ fb s = fb m /\ fl s = fl m /\ fk s = fk m.
Lemma dims_refl m : dims m m. Proof. unfold dims; auto. Qed.
Lemma dims_trans a b c : dims a b -> dims b c -> dims a c.
Proof. unfold dims. intuition congruence. Qed.
Lemma wr_ok (s : fmat T) i j x : i < fr s -> j < fc s ->
  exists s', wr s i j x = Ok s' /\ dims s s' /\
    forall i' j', fe s' i' j' = if (i' =? i) && (j' =? j) then Some x else fe s i' j'.
Proof.
  intros Hi Hj. unfold wr. apply Nat.ltb_lt in Hi. apply Nat.ltb_lt in Hj. rewrite Hi, Hj. simpl.
  eexists. split; [reflexivity|]. split; [unfold dims; simpl; auto|]. reflexivity.
Qed.
Lemma rd_ok (s : fmat T) i j x : i < fr s -> j < fc s -> fe s i j = Some x -> rd s i j = Ok x.
Proof.
  intros Hi Hj H. unfold rd. apply Nat.ltb_lt in Hi. apply Nat.ltb_lt in Hj. now rewrite Hi, Hj, H.
Qed.
Lemma rd_inv (s : fmat T) i j x : rd s i j = Ok x -> i < fr s /\ j < fc s /\ fe s i j = Some x.
Proof.
  unfold rd. destruct (Nat.ltb_spec i (fr s)), (Nat.ltb_spec j (fc s)); simpl; try discriminate.
  destruct (fe s i j); try discriminate. intros [= ->]. auto.
Qed.

(** state when the loop reaches (i, j): earlier positions hold F, others are as in m *)
Definition partway (m s : fmat T) (F : nat -> nat -> T) (i j : nat) : Prop :=
  dims m s /\ forall i' j', i' < fr m -> j' < fc m ->
    fe s i' j' = if beforeb (fl m) i' j' i j then Some (F i' j') else fe m i' j'.

Lemma each_ok (m : fmat T) f F :
  (forall i j s, i < fr m -> j < fc m -> partway m s F i j ->
     f i j s = wr s i j (F i j)) ->
  exists s, each m f = Ok s /\ dims m s /\
    (forall i j, i < fr m -> j < fc m -> fe s i j = Some (F i j)).
Proof.
  intros Hf. unfold each. destruct (fl m) eqn:L.
  - assert (H : exists s, loop 0 (fr m) (fun i => loop 0 (fc m) (fun j => f i j)) m = Ok s
                 /\ partway m s F (fr m) 0).
    { apply (loop_inv (fun i s => partway m s F i 0)); [lia| |].
      - split; [apply dims_refl|]. intros i' j' _ _. rewrite L. simpl.
        destruct (i' =? 0); simpl; auto.
      - intros i s [_ Hi] Hp.
        assert (H : exists s', loop 0 (fc m) (fun j => f i j) s = Ok s' /\ partway m s' F i (fc m)).
        { apply (loop_inv (fun j s => partway m s F i j)); [lia|auto|].
          intros j s1 [_ Hj] P. assert (P' := P). destruct P' as [Hd Hv].
          assert (Hd' := Hd). destruct Hd' as (D1 & D2 & _).
          rewrite Hf by auto.
          destruct (wr_ok s1 i j (F i j)) as (s2 & W & Wd & Wv); [lia|lia|].
          exists s2. split; auto. split; [eapply dims_trans; eauto|].
          intros i' j' Hi' Hj'. rewrite Wv, Hv by auto. rewrite L. simpl.
          destruct (Nat.eqb_spec i' i), (Nat.eqb_spec j' j), (Nat.ltb_spec i' i), (Nat.ltb_spec j' j),
            (Nat.ltb_spec j' (S j)); subst; simpl; auto; lia. }
        destruct H as (s' & E & Hd & Hv). exists s'. split; auto. split; auto.
        intros i' j' Hi' Hj'. rewrite Hv by auto. rewrite L. simpl.
        destruct (Nat.eqb_spec i' i), (Nat.ltb_spec i' i), (Nat.ltb_spec j' (fc m)),
            (Nat.ltb_spec i' (S i)), (Nat.eqb_spec i' (S i)); subst; simpl; auto; lia. }
    destruct H as (s & E & Hd & Hv). exists s. split; auto. split; auto.
    intros i j Hi Hj. rewrite Hv by auto. rewrite L. simpl.
    destruct (Nat.ltb_spec i (fr m)); auto; lia.
  - assert (H : exists s, loop 0 (fc m) (fun j => loop 0 (fr m) (fun i => f i j)) m = Ok s
                 /\ partway m s F 0 (fc m)).
    { apply (loop_inv (fun j s => partway m s F 0 j)); [lia| |].
      - split; [apply dims_refl|]. intros i' j' _ _. rewrite L. simpl.
        destruct (j' =? 0); simpl; auto.
      - intros j s [_ Hj] Hp.
        assert (H : exists s', loop 0 (fr m) (fun i => f i j) s = Ok s' /\ partway m s' F (fr m) j).
        { apply (loop_inv (fun i s => partway m s F i j)); [lia|auto|].
          intros i s1 [_ Hi] P. assert (P' := P). destruct P' as [Hd Hv].
          assert (Hd' := Hd). destruct Hd' as (D1 & D2 & _).
          rewrite Hf by auto.
          destruct (wr_ok s1 i j (F i j)) as (s2 & W & Wd & Wv); [lia|lia|].
          exists s2. split; auto. split; [eapply dims_trans; eauto|].
          intros i' j' Hi' Hj'. rewrite Wv, Hv by auto. rewrite L. simpl.
          destruct (Nat.eqb_spec i' i), (Nat.eqb_spec j' j), (Nat.ltb_spec i' i), (Nat.ltb_spec j' j),
            (Nat.ltb_spec i' (S i)); subst; simpl; auto; lia. }
        destruct H as (s' & E & Hd & Hv). exists s'. split; auto. split; auto.
        intros i' j' Hi' Hj'. rewrite Hv by auto. rewrite L. simpl.
        destruct (Nat.eqb_spec j' j), (Nat.ltb_spec j' j), (Nat.ltb_spec i' (fr m)),
            (Nat.ltb_spec j' (S j)), (Nat.eqb_spec j' (S j)); subst; simpl; auto; lia. }
    destruct H as (s & E & Hd & Hv). exists s. split; auto. split; auto.
    intros i j Hi Hj. rewrite Hv by auto. rewrite L. simpl.
    destruct (Nat.ltb_spec j (fc m)); auto; lia.
Qed.

Lemma before_irrefl l i j : beforeb l i j i j = false.
Proof. destruct l; simpl; rewrite !Nat.ltb_irrefl, Nat.eqb_refl; auto. Qed.

Lemma generate_ok (m : fmat T) F :
  exists s, generate m F = Ok s /\ same_type m s /\ is_mat s (fr m) (fc m) F.
Proof.
  destruct (each_ok m (fun i j s => wr s i j (F i j)) F) as (s & E & Hd & Hv); auto.
  exists s. destruct Hd as (A & B & C & D & K). unfold same_type, is_mat. auto 10.
Qed.

(** ** Expressions *)
Lemma x_shape_dims (m : fmat T) e r c : x_shape (fr m, fc m) e = Some (r, c) ->
  x_rows m e = r /\ x_cols m e = c /\ x_build m e = Ok tt.
Proof.
  revert r c. induction e as [|a|f e IH|f e1 IH1 e2 IH2|f e IH k|e IH|f u v]; simpl; intros r c H;
    try (injection H as <- <-; auto); auto.
  - destruct (x_shape _ e1) as [[r1 c1]|]; [|discriminate].
    destruct (x_shape _ e2) as [[r2 c2]|]; [|discriminate].
    destruct (IH1 _ _ eq_refl) as (A1 & A2 & A3). destruct (IH2 _ _ eq_refl) as (B1 & B2 & B3).
    rewrite A1, A2, A3, B1, B2, B3. simpl.
    destruct (_ && _) eqn:Q; [|discriminate]. injection H as <- <-. auto.
  - destruct (x_shape _ e) as [[r1 c1]|]; [|discriminate]. injection H as <- <-.
    destruct (IH _ _ eq_refl) as (A1 & A2 & A3). auto.
Qed.

(** reading element (i,j) of e in a state whose cell (i,j) [or (j,i)] is untouched *)
Lemma x_get_ok (m s : fmat T) e r c i j x : dims m s ->
  x_shape (fr m, fc m) e = Some (r, c) -> i < r -> j < c ->
  forall t, self_straight t e ->
  (t = false -> fe s i j = fe m i j) -> (t = true -> fe s j i = fe m j i) ->
  x_val (fe m) e i j = Some x -> x_get s e i j = Ok x.
Proof.
  intros Hd. revert r c i j x.
  induction e as [|a|f e IH|f e1 IH1 e2 IH2|f e IH k|e IH|f u v]; simpl;
    intros r c i j x Hs Hi Hj t Ht Hf Htr Hx.
  - injection Hs as <- <-. subst t. destruct Hd as (D1 & D2 & _).
    apply rd_ok; try lia. rewrite Hf; auto.
  - injection Hs as <- <-. apply rd_ok; auto.
  - destruct (x_val _ e i j) eqn:Q; [|discriminate]. injection Hx as <-.
    now rewrite (IH r c i j t0 Hs Hi Hj t).
  - destruct (x_shape _ e1) as [[r1 c1]|] eqn:S1; [|discriminate].
    destruct (x_shape _ e2) as [[r2 c2]|] eqn:S2; [|discriminate].
    destruct (_ && _) eqn:Q; [|discriminate]. injection Hs as <- <-.
    apply andb_prop in Q. destruct Q as [Q1 Q2]. apply Nat.eqb_eq in Q1. apply Nat.eqb_eq in Q2. subst.
    destruct (x_val _ e1 i j) eqn:V1; [|discriminate]. destruct (x_val _ e2 i j) eqn:V2; [|discriminate].
    injection Hx as <-. destruct Ht as [T1 T2].
    rewrite (IH1 r2 c2 i j t0 eq_refl Hi Hj t), (IH2 r2 c2 i j t1 eq_refl Hi Hj t); auto.
  - destruct (x_val _ e i j) eqn:Q; [|discriminate]. injection Hx as <-.
    now rewrite (IH r c i j t0 Hs Hi Hj t).
  - destruct (x_shape _ e) as [[r1 c1]|] eqn:S1; [|discriminate]. injection Hs as <- <-.
    apply (IH r1 c1 j i x eq_refl Hj Hi (negb t)); auto; destruct t; simpl; try discriminate; auto.
  - unfold vget. destruct (nth_error u i); [|discriminate]. destruct (nth_error v j); [|discriminate].
    now injection Hx as <-.
Qed.

(** an expression not mentioning the target does not depend on it *)
Lemma x_free_shape e rc rc' : self_free (T:=T) e -> x_shape rc e = x_shape rc' e.
Proof.
  induction e; simpl; intros H; auto; try tauto.
  - destruct H. now rewrite IHe1, IHe2.
  - now rewrite IHe.
Qed.
Lemma x_free_val e g g' i j : self_free (T:=T) e -> x_val g e i j = x_val g' e i j.
Proof.
  revert i j. induction e; simpl; intros i' j' H; auto; try tauto.
  - now rewrite IHe.
  - destruct H. now rewrite IHe1, IHe2.
  - now rewrite IHe.
Qed.
Lemma x_free_straight e t : self_free (T:=T) e -> self_straight t e.
Proof. revert t. induction e; simpl; intros t H; auto; try tauto. destruct H; auto. Qed.
Lemma x_free_dims e (m m' : fmat T) : self_free e -> x_rows m e = x_rows m' e /\ x_cols m e = x_cols m' e.
Proof. induction e; simpl; intros H; tauto. Qed.

Lemma resize_id (m : fmat T) : forall m1,
  check_or_resize m (fr m) (fc m) = Ok m1 ->
  dims m m1 /\ forall i j, i < fr m -> j < fc m -> fe m1 i j = fe m i j.
Proof.
  unfold check_or_resize, resize. intros m1.
  assert (G : forall i j, i < fr m -> j < fc m -> fe (reshape m (fr m) (fc m)) i j = fe m i j).
  { intros i j Hi Hj. simpl. assert (Q := index_bound (fl m) _ _ _ _ Hi Hj).
    apply Nat.ltb_lt in Q. rewrite Q, unindex_index; auto. }
  destruct (fk m) eqn:K.
  - rewrite !Nat.eqb_refl. simpl. intros [= <-]. split; auto. apply dims_refl.
  - rewrite !(proj2 (Z.leb_le _ _)) by lia. simpl. rewrite !Nat2Z.id. intros [= <-].
    split; [unfold dims; simpl; auto|]; auto.
  - rewrite !(proj2 (Z.leb_le _ _)) by lia. simpl. rewrite !Nat2Z.id, Nat.eqb_refl. simpl. intros [= <-].
    split; [unfold dims; simpl; auto|]; auto.
Qed.
Lemma check_or_resize_ok (m : fmat T) r c : can_take m r c ->
  exists m1, check_or_resize m r c = Ok m1 /\ fr m1 = r /\ fc m1 = c /\ same_type m m1.
Proof.
  unfold can_take, check_or_resize, resize, same_type. destruct (fk m) eqn:K.
  - intros [<- <-]. exists m. rewrite !Nat.eqb_refl. simpl. repeat split; auto.
  - intros _. rewrite !(proj2 (Z.leb_le _ _)) by lia. simpl. rewrite !Nat2Z.id. eexists. split; [reflexivity|].
    simpl. repeat split; auto.
  - intros E. rewrite !(proj2 (Z.leb_le _ _)) by lia. simpl. rewrite !Nat2Z.id, E, Nat.eqb_refl. simpl.
    eexists. split; [reflexivity|]. simpl. repeat split; auto.
Qed.
Lemma can_take_own (m : fmat T) : can_take m (fr m) (fc m).
Proof. unfold can_take. destruct (fk m); auto. Qed.
Lemma check_or_resize_no (m : fmat T) r c : ~ can_take m r c ->
  check_or_resize m r c = Throw (match fk m with MFixed => EIncompatibleMatrixSize | _ => EMatrixSize end).
Proof.
  unfold can_take, check_or_resize, resize. destruct (fk m) eqn:K.
  - intros H. destruct (Nat.eqb_spec (fr m) r), (Nat.eqb_spec (fc m) c); simpl; auto. tauto.
  - tauto.
  - intros E. rewrite !(proj2 (Z.leb_le _ _)) by lia. simpl. rewrite !Nat2Z.id.
    destruct (Nat.eqb_spec (fr m * fc m) (r * c)); simpl; auto. lia.
Qed.

Lemma each_ext (m : fmat T) f g : (forall i j s, f i j s = g i j s) -> each m f = each m g.
Proof.
  intros H. unfold each. destruct (fl m); apply loop_ext; intros; apply loop_ext; intros; auto.
Qed.
End Each.
