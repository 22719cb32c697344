(** Proofs about matrix assignment, in-place operations, accessors and products. *)
From Coq Require Import List ZArith Bool Arith Lia Ring_theory Ring.
From Verif Require Import Base BaseFacts MatModel MatSpec MatProofs.
Import ListNotations.

Section Ops1.
Context {T : Type}.
Implicit Types m s : fmat T.

Lemma each_mat m f F r c : fr m = r -> fc m = c ->
  (forall i j s, i < r -> j < c -> partway m s F i j -> f i j s = wr s i j (F i j)) ->
  exists m', each m f = Ok m' /\ same_type m m' /\ is_mat m' r c F.
Proof.
  intros Hr Hc H. destruct (each_ok m f F) as (s & E & Hd & Hv).
  { intros; apply H; auto; lia. }
  exists s. destruct Hd as (A & B & C & D & K). unfold same_type, is_mat. subst r c. auto 10.
Qed.
Lemma same_type_trans m1 m2 m3 : same_type m1 m2 -> same_type m2 m3 -> same_type m1 m3.
Proof. unfold same_type. intuition congruence. Qed.
Lemma partway_cur m s F i j : i < fr m -> j < fc m -> partway m s F i j ->
  dims m s /\ fe s i j = fe m i j.
Proof. intros Hi Hj [D V]. split; auto. now rewrite V, before_irrefl by auto. Qed.

Lemma m_assign_l m e r c F :
  x_shape (fr m, fc m) e = Some (r, c) ->
  (forall i j, i < r -> j < c -> x_val (fe m) e i j = Some (F i j)) ->
  self_straight false e -> self_free e \/ (fr m = r /\ fc m = c) -> can_take m r c ->
  exists m', m_assign m e = Ok m' /\ same_type m m' /\ is_mat m' r c F.
Proof.
  intros Hs Hv Ht Hor Hc. unfold m_assign.
  destruct (x_shape_dims m e r c Hs) as (X1 & X2 & X3). rewrite X3, X1, X2. simpl.
  destruct (check_or_resize_ok m r c Hc) as (m1 & E1 & R1 & C1 & T1). rewrite E1. simpl.
  destruct (each_mat m1 (fun i j s => x <- x_get s e i j ;; wr s i j x) F r c R1 C1) as (m' & E & St & Im).
  - intros i j s Hi Hj P.
    assert (P' : dims m1 s /\ fe s i j = fe m1 i j) by (apply (partway_cur m1 s F); auto; lia).
    destruct P' as [Pd Pc].
    assert (Hg : x_get s e i j = Ok (F i j)); [|now rewrite Hg].
    destruct Hor as [Hfree|[Hr Hcc]].
    + apply (x_get_ok s s e r c i j (F i j) (dims_refl s)) with (t := false); auto.
      * now rewrite (x_free_shape e _ (fr m, fc m)).
      * rewrite (x_free_val e _ (fe m)); auto.
    + subst r c. destruct (resize_id m m1 E1) as [Dm V1].
      apply (x_get_ok m s e (fr m) (fc m) i j (F i j)) with (t := false); auto.
      * apply (dims_trans m m1 s); auto.
      * intros _. rewrite Pc. apply V1; auto.
      * discriminate.
  - exists m'. split; auto. split; auto. eapply same_type_trans; eauto.
Qed.

Lemma m_compound_l op m e r c M F :
  is_mat m r c M ->
  x_shape (r, c) e = Some (r, c) ->
  (forall i j, i < r -> j < c -> x_val (fe m) e i j = Some (F i j)) ->
  self_straight false e ->
  exists m', m_compound op m e = Ok m' /\ same_type m m' /\
    is_mat m' r c (fun i j => op (M i j) (F i j)).
Proof.
  intros (Hr & Hc & HM) Hs Hv Ht. subst r c. unfold m_compound.
  destruct (x_shape_dims m e _ _ Hs) as (X1 & X2 & X3). rewrite X3, X1, X2. simpl.
  destruct (check_or_resize_ok m _ _ (can_take_own m)) as (m1 & E1 & R1 & C1 & T1). rewrite E1. simpl.
  destruct (resize_id m m1 E1) as [Dm V1].
  destruct (each_mat m1 (fun i j s => x <- rd s i j ;; y <- x_get s e i j ;; wr s i j (op x y))
     (fun i j => op (M i j) (F i j)) _ _ R1 C1) as (m' & E & St & Im).
  - intros i j s Hi Hj P.
    apply partway_cur in P; try lia. destruct P as [Pd Pc].
    assert (D' : dims m s) by (apply (dims_trans m m1 s); auto).
    assert (Q : fe s i j = fe m i j) by (rewrite Pc; auto).
    destruct D' as (D1 & D2 & D3).
    rewrite (rd_ok s i j (M i j)) by (try lia; rewrite Q; auto). simpl.
    rewrite (x_get_ok m s e (fr m) (fc m) i j (F i j)) with (t := false); auto.
    + unfold dims; tauto.
    + discriminate.
  - exists m'. split; auto. split; auto. eapply same_type_trans; eauto.
Qed.

Lemma m_scale_val_l op m r c M k : is_mat m r c M ->
  exists m', m_scale op m (RVal k) = Ok m' /\ same_type m m' /\ is_mat m' r c (fun i j => op (M i j) k).
Proof.
  intros (Hr & Hc & HM). unfold m_scale. apply each_mat; auto.
  intros i j s Hi Hj P. apply partway_cur in P; try lia. destruct P as [(D1 & D2 & _) Q].
  rewrite (rd_ok s i j (M i j)) by (try lia; rewrite Q; auto). reflexivity.
Qed.
Lemma m_scale_elem_l op m r c M p q : is_mat m r c M -> p < r -> q < c ->
  exists m', m_scale op m (RElem p q) = Ok m' /\ same_type m m' /\
    is_mat m' r c (fun i j => if beforeb (fl m) p q i j then op (M i j) (op (M p q) (M p q))
                              else op (M i j) (M p q)).
Proof.
  intros (Hr & Hc & HM) Hp Hq. unfold m_scale. apply each_mat; auto.
  intros i j s Hi Hj P. assert (P' := P). apply partway_cur in P'; try lia. destruct P' as [(D1 & D2 & _) Q].
  rewrite (rd_ok s i j (M i j)) by (try lia; rewrite Q; auto). simpl.
  destruct P as [_ V].
  rewrite (rd_ok s p q (if beforeb (fl m) p q i j then op (M p q) (M p q) else M p q)); try lia.
  - simpl. destruct (beforeb (fl m) p q i j); reflexivity.
  - rewrite V by lia. rewrite before_irrefl.
    destruct (beforeb (fl m) p q i j); auto.
Qed.
Lemma m_fill_val_l m x :
  exists m', m_fill m (RVal x) = Ok m' /\ same_type m m' /\ is_mat m' (fr m) (fc m) (fun _ _ => x).
Proof. unfold m_fill. apply each_mat; auto. Qed.
Lemma m_fill_elem_l m p q x : p < fr m -> q < fc m -> fe m p q = Some x ->
  exists m', m_fill m (RElem p q) = Ok m' /\ same_type m m' /\ is_mat m' (fr m) (fc m) (fun _ _ => x).
Proof.
  intros Hp Hq Hx. unfold m_fill. apply each_mat; auto.
  intros i j s Hi Hj [(D1 & D2 & _) V]. simpl.
  rewrite (rd_ok s p q x); auto; try lia. rewrite V by auto. destruct (beforeb _ _ _ _ _); auto.
Qed.

(** ** Rows, columns, basis vectors *)
Lemma vget_ok (l : list T) i d : i < length l -> vget l i = Ok (nth i l d).
Proof. intros H. unfold vget. now rewrite (nth_error_nth' l d H). Qed.

Lemma set_row_l m i v d : i < fr m -> length v = fc m ->
  exists m', set_row m i v = Ok m' /\ same_type m m' /\ fr m' = fr m /\ fc m' = fc m /\
    forall i' j', i' < fr m -> j' < fc m ->
      fe m' i' j' = if i' =? i then Some (nth j' v d) else fe m i' j'.
Proof.
  intros Hi Hl. unfold set_row. rewrite Hl, Nat.eqb_refl. simpl.
  destruct (loop_inv (fun j s => dims m s /\ forall i' j', i' < fr m -> j' < fc m ->
      fe s i' j' = if (i' =? i) && (j' <? j) then Some (nth j' v d) else fe m i' j')
      (fun j s => x <- vget v j ;; wr s i j x) 0 (fc m) m) as (s & E & D & V).
  - lia.
  - split; [apply dims_refl|]. intros. rewrite andb_false_r. auto.
  - intros j s [_ Hj] [(D1 & D2 & D3) V]. rewrite (vget_ok v j d) by lia. simpl.
    destruct (wr_ok s i j (nth j v d)) as (s' & E & D' & V'); try lia.
    exists s'. split; auto. split; [eapply dims_trans; eauto; unfold dims; tauto|].
    intros i' j' Hi' Hj'. rewrite V', V by auto.
    destruct (Nat.eqb_spec i' i), (Nat.eqb_spec j' j), (Nat.ltb_spec j' j), (Nat.ltb_spec j' (S j));
      subst; simpl; auto; lia.
  - exists s. split; auto. destruct D as (D1 & D2 & D3 & D4 & D5). unfold same_type. repeat split; auto.
    intros i' j' Hi' Hj'. rewrite V by auto. apply Nat.ltb_lt in Hj'. rewrite Hj', andb_true_r. auto.
Qed.
Lemma set_col_l m j v d : j < fc m -> length v = fr m ->
  exists m', set_col m j v = Ok m' /\ same_type m m' /\ fr m' = fr m /\ fc m' = fc m /\
    forall i' j', i' < fr m -> j' < fc m ->
      fe m' i' j' = if j' =? j then Some (nth i' v d) else fe m i' j'.
Proof.
  intros Hi Hl. unfold set_col. rewrite Hl, Nat.eqb_refl. simpl.
  destruct (loop_inv (fun i s => dims m s /\ forall i' j', i' < fr m -> j' < fc m ->
      fe s i' j' = if (j' =? j) && (i' <? i) then Some (nth i' v d) else fe m i' j')
      (fun i s => x <- vget v i ;; wr s i j x) 0 (fr m) m) as (s & E & D & V).
  - lia.
  - split; [apply dims_refl|]. intros. rewrite andb_false_r. auto.
  - intros i s [_ Hj] [(D1 & D2 & D3) V]. rewrite (vget_ok v i d) by lia. simpl.
    destruct (wr_ok s i j (nth i v d)) as (s' & E & D' & V'); try lia.
    exists s'. split; auto. split; [eapply dims_trans; eauto; unfold dims; tauto|].
    intros i' j' Hi' Hj'. rewrite V', V by auto.
    destruct (Nat.eqb_spec i' i), (Nat.eqb_spec j' j), (Nat.ltb_spec i' i), (Nat.ltb_spec i' (S i));
      subst; simpl; auto; lia.
  - exists s. split; auto. destruct D as (D1 & D2 & D3 & D4 & D5). unfold same_type. repeat split; auto.
    intros i' j' Hi' Hj'. rewrite V by auto. apply Nat.ltb_lt in Hi'. rewrite Hi', andb_true_r. auto.
Qed.
Lemma row_of_l m r c M i : is_mat m r c M -> i < r ->
  row_of m (Z.of_nat i) = Ok (map (M i) (seq 0 c)).
Proof.
  intros (Hr & Hc & HM) Hi. unfold row_of. rewrite (proj2 (Z.leb_le _ _)) by lia. simpl.
  rewrite Nat2Z.id, Hc. apply mapO_pure. intros j Hj. apply in_seq in Hj. apply rd_ok; try lia. apply HM; lia.
Qed.
Lemma col_of_l m r c M j : is_mat m r c M -> j < c ->
  col_of m (Z.of_nat j) = Ok (map (fun i => M i j) (seq 0 r)).
Proof.
  intros (Hr & Hc & HM) Hi. unfold col_of. rewrite (proj2 (Z.leb_le _ _)) by lia. simpl.
  rewrite Nat2Z.id, Hr. apply mapO_pure. intros i Hj. apply in_seq in Hj. apply rd_ok; try lia. apply HM; lia.
Qed.
Lemma basis_of_l m i :
  basis_of m i = match fb m with row_basis => row_of m i | col_basis => col_of m i end.
Proof. unfold basis_of, row_of, col_of, basis_element, basis_size. destruct (fb m); reflexivity. Qed.

(** ** Element lists *)
Lemma assign_pointer_loop m (l : list T) n d :
  n = fr m * fc m -> n <= length l ->
  exists m', loop 0 n (fun k s => x <- vget l k ;; wr s (k / fc m) (k mod fc m) x) m = Ok m' /\
    same_type m m' /\ is_mat m' (fr m) (fc m) (fun i j => nth (i * fc m + j) l d).
Proof.
  intros Hn Hl.
  destruct (loop_inv (fun k s => dims m s /\ forall i' j', i' < fr m -> j' < fc m ->
      i' * fc m + j' < k -> fe s i' j' = Some (nth (i' * fc m + j') l d))
      (fun k s => x <- vget l k ;; wr s (k / fc m) (k mod fc m) x) 0 n m) as (s & E & D & V).
  - lia.
  - split; [apply dims_refl|]. lia.
  - intros k s [_ Hk] [(D1 & D2 & D3) V]. rewrite (vget_ok l k d) by lia. simpl.
    assert (Hk' : k < fr m * fc m) by lia.
    assert (Hc : fc m <> 0) by (intros Z0; rewrite Z0 in Hk'; lia).
    assert (A1 : k / fc m < fr m) by (apply Nat.div_lt_upper_bound; lia).
    assert (A2 : k mod fc m < fc m) by (apply Nat.mod_upper_bound; auto).
    assert (A3 : k = k / fc m * fc m + k mod fc m) by (rewrite (Nat.div_mod k (fc m)) at 1 by auto; lia).
    destruct (wr_ok s (k / fc m) (k mod fc m) (nth k l d)) as (s' & E & D' & V'); try lia.
    exists s'. split; auto. split; [eapply dims_trans; eauto; unfold dims; tauto|].
    intros i' j' Hi' Hj' Hlt. rewrite V'.
    destruct (Nat.eqb_spec i' (k / fc m)), (Nat.eqb_spec j' (k mod fc m)); simpl.
    + subst i' j'. rewrite <- A3. reflexivity.
    + apply V; auto. subst i'. lia.
    + apply V; auto. assert (i' * fc m + j' <> k); [|lia]. intros Q. apply n0.
      rewrite <- Q, Nat.div_add_l, Nat.div_small by auto. lia.
    + apply V; auto. assert (i' * fc m + j' <> k); [|lia]. intros Q. apply n0.
      rewrite <- Q, Nat.div_add_l, Nat.div_small by auto. lia.
  - exists s. split; auto. destruct D as (D1 & D2 & D3 & D4 & D5). unfold same_type, is_mat. repeat split; auto.
    intros i j Hi Hj. apply V; auto. subst n. nia.
Qed.
Lemma assign_list_l ex m l d : length l = fr m * fc m ->
  exists m', assign_list ex m l = Ok m' /\ same_type m m' /\
    is_mat m' (fr m) (fc m) (fun i j => nth (i * fc m + j) l d).
Proof.
  intros H. unfold assign_list. rewrite <- H, Nat.eqb_refl. simpl. apply assign_pointer_loop; lia.
Qed.
Lemma assign_pointer_l m l d : fr m * fc m <= length l ->
  exists m', assign_pointer m l = Ok m' /\ same_type m m' /\
    is_mat m' (fr m) (fc m) (fun i j => nth (i * fc m + j) l d).
Proof. intros H. unfold assign_pointer. apply assign_pointer_loop; auto. Qed.

(** ** Transposition *)
Definition swapped (m : fmat T) (i j i' j' : nat) : bool :=
  ((i' <? i) && (j' <? i)) || ((i' =? i) && (j' <? j)) || ((j' =? i) && (i' <? j)).

Lemma transpose_fixed_l m n M : is_mat m n n M ->
  exists m', transpose_fixed m = Ok m' /\ same_type m m' /\ is_mat m' n n (fun i j => M j i).
Proof.
  intros (Hr & Hc & HM). unfold transpose_fixed. rewrite Hr, Hc, Nat.eqb_refl.
  set (I := fun i j s => dims m s /\ forall i' j', i' < n -> j' < n ->
      fe s i' j' = Some (if swapped m i j i' j' then M j' i' else M i' j')).
  destruct (loop_inv_max (fun i s => I i 0 s)
    (fun i => loop 0 i (fun j s => a <- rd s i j ;; b <- rd s j i ;; s' <- wr s i j b ;; wr s' j i a))
    1 n m) as (s & E & D & V).
  - split; [apply dims_refl|]. intros i' j' Hi' Hj'. rewrite HM by auto. f_equal. unfold swapped.
    destruct (Nat.ltb_spec i' 1), (Nat.ltb_spec j' 1), (Nat.eqb_spec i' 1), (Nat.eqb_spec j' 1),
      (Nat.ltb_spec j' 0), (Nat.ltb_spec i' 0); simpl; auto; try lia.
    replace i' with 0 by lia. replace j' with 0 by lia. auto.
  - intros i s [_ Hi] HI.
    destruct (loop_inv (fun j s => I i j s)
      (fun j s => a <- rd s i j ;; b <- rd s j i ;; s' <- wr s i j b ;; wr s' j i a) 0 i s)
      as (s1 & E & D & V).
    + lia.
    + auto.
    + intros j s1 [_ Hj] [D V]. assert (D' := D). destruct D' as (D1 & D2 & D3).
      assert (S1 : swapped m i j i j = false).
      { unfold swapped. destruct (Nat.ltb_spec i i), (Nat.ltb_spec j i), (Nat.eqb_spec i i), (Nat.ltb_spec j j),
          (Nat.eqb_spec j i), (Nat.ltb_spec i j); simpl; auto; lia. }
      assert (S2 : swapped m i j j i = false).
      { unfold swapped. destruct (Nat.ltb_spec i i), (Nat.ltb_spec j i), (Nat.eqb_spec i i), (Nat.ltb_spec j j),
          (Nat.eqb_spec j i), (Nat.ltb_spec i j); simpl; auto; lia. }
      rewrite (rd_ok s1 i j (M i j)); try lia; [|rewrite V, S1 by lia; auto].
      rewrite (rd_ok s1 j i (M j i)); try lia; [|rewrite V, S2 by lia; auto]. simpl.
      destruct (wr_ok s1 i j (M j i)) as (s2 & W2 & Wd2 & Wv2); try lia. rewrite W2. simpl.
      assert (Wd2' := Wd2). destruct Wd2' as (W21 & W22 & _).
      destruct (wr_ok s2 j i (M i j)) as (s3 & W3 & Wd3 & Wv3); try lia. rewrite W3.
      exists s3. split; auto. split; [eapply dims_trans; eauto; eapply dims_trans; eauto|].
      intros i' j' Hi' Hj'. rewrite Wv3, Wv2, V by auto. unfold swapped.
      destruct (Nat.eqb_spec i' j), (Nat.eqb_spec j' i), (Nat.eqb_spec i' i), (Nat.eqb_spec j' j),
        (Nat.ltb_spec i' i), (Nat.ltb_spec j' i), (Nat.ltb_spec j' j), (Nat.ltb_spec i' j),
        (Nat.ltb_spec j' (S j)), (Nat.ltb_spec i' (S j)); subst; simpl; auto; lia.
    + exists s1. split; auto. split; auto. intros i' j' Hi' Hj'. rewrite V by auto. f_equal. unfold swapped.
      destruct (Nat.eqb_spec j' i), (Nat.eqb_spec i' i),
        (Nat.ltb_spec i' i), (Nat.ltb_spec j' i), (Nat.ltb_spec j' 0), (Nat.ltb_spec i' 0),
        (Nat.ltb_spec j' (S i)), (Nat.ltb_spec i' (S i)); simpl; rewrite ?andb_false_r; simpl; auto; try lia.
      subst. auto.
  - exists s. split; auto. destruct D as (D1 & D2 & D3 & D4 & D5).
    split; [unfold same_type; auto|]. split; [lia|]. split; [lia|].
    intros i j Hi Hj. rewrite V by auto. f_equal. unfold swapped.
    destruct (Nat.ltb_spec i (Nat.max 1 n)), (Nat.ltb_spec j (Nat.max 1 n)); simpl; auto; lia.
Qed.

Lemma transpose_dynamic_l m r c M : is_mat m r c M -> fk m <> MFixed ->
  exists m', transpose_dynamic m = Ok m' /\ same_type m m' /\ is_mat m' c r (fun i j => M j i).
Proof.
  intros Hm Hk. assert (Hm' := Hm). destruct Hm' as (Hr & Hc & HM). unfold transpose_dynamic.
  destruct (m_assign_l (fresh 0 0 (fb m) (fl m) MDynamic) (XMat m) r c M) as (t & E & St & Im).
  - simpl. now rewrite Hr, Hc.
  - exact HM.
  - exact I.
  - left. exact I.
  - exact I.
  - rewrite E. simpl. destruct Im as (Tr & Tc & TM).
    apply (m_assign_l m (XTrans (XMat t)) c r (fun i j => M j i)).
    + simpl. now rewrite Tr, Tc.
    + intros i j Hi Hj. simpl. auto.
    + exact I.
    + left. exact I.
    + unfold can_take. destruct (fk m); auto; [congruence|]. rewrite Hr, Hc. lia.
Qed.

Lemma m_transpose_l m r c M : is_mat m r c M -> (fk m = MFixed -> r = c) ->
  exists m', m_transpose m = Ok m' /\ same_type m m' /\ is_mat m' c r (fun i j => M j i).
Proof.
  intros Hm Hk. unfold m_transpose. destruct (fk m) eqn:K.
  - rewrite (Hk eq_refl) in *. apply transpose_fixed_l; auto.
  - apply transpose_dynamic_l; auto. congruence.
  - apply transpose_dynamic_l; auto. congruence.
Qed.

Lemma reads_of_fmat m r c M : is_mat m r c M -> reads (of_fmat m) r c M.
Proof.
  intros (A & B & C). split; auto. split; auto. intros i j Hi Hj. simpl. apply rd_ok; auto; lia.
Qed.
Lemma reads_of_mexpr m e r c F : x_shape (fr m, fc m) e = Some (r, c) ->
  (forall i j, i < r -> j < c -> x_val (fe m) e i j = Some (F i j)) -> reads (of_mexpr m e) r c F.
Proof.
  intros Hs Hv. destruct (x_shape_dims m e r c Hs) as (A & B & _).
  split; auto. split; auto. intros i j Hi Hj. simpl.
  assert (G : forall e r c i j x, x_shape (fr m, fc m) e = Some (r, c) -> i < r -> j < c ->
     x_val (fe m) e i j = Some x -> x_get m e i j = Ok x).
  { clear. induction e as [|a|f e IH|f e1 IH1 e2 IH2|f e IH k|e IH|f u v]; simpl;
      intros r c i j x Hs Hi Hj Hx.
    - injection Hs as <- <-. apply rd_ok; auto.
    - injection Hs as <- <-. apply rd_ok; auto.
    - destruct (x_val _ e i j) eqn:Q; [|discriminate]. injection Hx as <-. now rewrite (IH r c i j t).
    - destruct (x_shape _ e1) as [[r1 c1]|] eqn:S1; [|discriminate].
      destruct (x_shape _ e2) as [[r2 c2]|] eqn:S2; [|discriminate].
      destruct (_ && _) eqn:Q; [|discriminate]. injection Hs as <- <-.
      apply andb_prop in Q. destruct Q as [Q1 Q2]. apply Nat.eqb_eq in Q1. apply Nat.eqb_eq in Q2. subst.
      destruct (x_val _ e1 i j) eqn:V1; [|discriminate]. destruct (x_val _ e2 i j) eqn:V2; [|discriminate].
      injection Hx as <-. rewrite (IH1 r2 c2 i j t), (IH2 r2 c2 i j t0); auto.
    - destruct (x_val _ e i j) eqn:Q; [|discriminate]. injection Hx as <-. now rewrite (IH r c i j t).
    - destruct (x_shape _ e) as [[r1 c1]|] eqn:S1; [|discriminate]. injection Hs as <- <-.
      apply (IH r1 c1 j i x); auto.
    - unfold vget. destruct (nth_error u i); [|discriminate]. destruct (nth_error v j); [|discriminate].
      now injection Hx as <-. }
  eapply G; eauto.
Qed.
End Ops1.

(** ** Products *)
Section Products.
Context {T : Type} {Op : Ops T}.
Hypothesis add_0_l : forall x : T, add zero x = x.

Lemma inner_ok n a b A B : 0 < n ->
  (forall k, k < n -> a k = Ok (A k)) -> (forall k, k < n -> b k = Ok (B k)) ->
  inner n a b = Ok (sum_n n (fun k => mul (A k) (B k))).
Proof using add_0_l.
  intros Hn Ha Hb. unfold inner. rewrite Ha, Hb by auto. simpl.
  destruct (loop_inv (fun k s => s = sum_n k (fun k => mul (A k) (B k)))
    (fun k s => x <- a k ;; y <- b k ;; Ok (add s (mul x y))) 1 n (mul (A 0) (B 0))) as (s & E & V).
  - lia.
  - simpl. now rewrite add_0_l.
  - intros k s Hk ->. rewrite Ha, Hb by lia. simpl. eauto.
  - rewrite E, V. auto.
Qed.

Lemma product_l a b r n c A B bs l k : reads a r n A -> reads b n c B -> 0 < n ->
  exists m, product a b bs l k = Ok m /\ fb m = bs /\ fl m = l /\ fk m = k /\
    is_mat m r c (fun i j => sum_n n (fun q => mul (A i q) (B q j))).
Proof using add_0_l.
  intros (A1 & A2 & A3) (B1 & B2 & B3) Hn. unfold product. rewrite A1, A2, B1, B2, Nat.eqb_refl. simpl.
  set (F := fun i j => sum_n n (fun q => mul (A i q) (B q j))).
  assert (H : forall i j s, i < r -> j < c ->
     m <- inner n (fun k => rg a i k) (fun k => rg b k j) ;; wr s i j m = wr s i j (F i j)).
  { intros i j s Hi Hj. rewrite (inner_ok n _ _ (A i) (fun q => B q j)); auto. }
  destruct (each_ok (fresh r c bs row_major k) (fun i j s => wr s i j (F i j)) F) as (s & E & D & V).
  { auto. }
  unfold each in E. simpl in E.
  (* the order of the loop is row order whatever the layout tag of the result *)
  set (body := fun i => loop 0 c (fun j (s : fmat T) =>
     m <- inner n (fun k => rg a i k) (fun k => rg b k j) ;; wr s i j m)).
  destruct (loop_inv (fun i s => fr s = r /\ fc s = c /\ fb s = bs /\ fl s = l /\ fk s = k /\
      forall i' j', i' < i -> j' < c -> fe s i' j' = Some (F i' j')) body 0 r (fresh r c bs l k))
      as (s1 & E1 & D1).
  - lia.
  - simpl. repeat split; auto. lia.
  - intros i s1 [_ Hi] (C1 & C2 & C3 & C4 & C5 & C6).
    destruct (loop_inv (fun j s => dims s1 s /\
      (forall i' j', i' < i -> j' < c -> fe s i' j' = Some (F i' j')) /\
      (forall j', j' < j -> fe s i j' = Some (F i j')))
      (fun j (s : fmat T) =>
        m <- inner n (fun k => rg a i k) (fun k => rg b k j) ;; wr s i j m) 0 c s1) as (s2 & E2 & D2 & V1 & V2).
    + lia.
    + split; [apply dims_refl|]. split; auto. lia.
    + intros j s2 [_ Hj] (D2 & V1 & V2). rewrite H by auto. assert (D2' := D2). destruct D2' as (Q1 & Q2 & _).
      destruct (wr_ok s2 i j (F i j)) as (s3 & W & Wd & Wv); try lia.
      exists s3. split; auto. split; [eapply dims_trans; eauto|]. split.
      * intros i' j' Hi' Hj'. rewrite Wv. destruct (Nat.eqb_spec i' i); simpl; auto; lia.
      * intros j' Hj'. rewrite Wv, Nat.eqb_refl. simpl. destruct (Nat.eqb_spec j' j); subst; auto.
        apply V2; lia.
    + exists s2. split; auto. destruct D2 as (Q1 & Q2 & Q3 & Q4 & Q5).
      repeat split; try congruence. intros i' j' Hi' Hj'.
      destruct (Nat.eq_dec i' i); [subst; auto|apply V1; auto; lia].
  - exists s1. split; [exact E1|]. unfold is_mat. tauto.
Qed.

Lemma mat_vec_l a v r n A d : reads a r n A -> length v = n -> 0 < n ->
  mat_vec a v = Ok (map (fun i => sum_n n (fun q => mul (A i q) (nth q v d))) (seq 0 r)).
Proof using add_0_l.
  intros (A1 & A2 & A3) Hl Hn. unfold mat_vec. rewrite A1, A2, Hl, Nat.eqb_refl. simpl.
  apply mapO_pure. intros i Hi. apply in_seq in Hi.
  apply (inner_ok n _ _ (A i) (fun q => nth q v d)); auto.
  - intros; apply A3; auto; lia.
  - intros; apply vget_ok; lia.
Qed.
Lemma vec_mat_l v b n c B d : length v = n -> reads b n c B -> 0 < n ->
  vec_mat v b = Ok (map (fun j => sum_n n (fun q => mul (nth q v d) (B q j))) (seq 0 c)).
Proof using add_0_l.
  intros Hl (A1 & A2 & A3) Hn. unfold vec_mat. rewrite A1, A2, Hl, Nat.eqb_refl. simpl.
  apply mapO_pure. intros i Hi. apply in_seq in Hi.
  apply (inner_ok n _ _ (fun q => nth q v d) (fun q => B q i)); auto.
  - intros; apply vget_ok; lia.
  - intros; apply A3; auto; lia.
Qed.
Lemma trace_l a n A : reads a n n A -> 0 < n -> trace a = Ok (sum_n n (fun i => A i i)).
Proof using add_0_l.
  intros (A1 & A2 & A3) Hn. unfold trace. rewrite A1, A2, Nat.eqb_refl. simpl.
  rewrite A3 by auto. simpl.
  destruct (loop_inv (fun k s => s = sum_n k (fun k => A k k))
    (fun i s => y <- rg a i i ;; Ok (add s y)) 1 n (A 0 0)) as (s & E & V).
  - lia.
  - simpl. now rewrite add_0_l.
  - intros k s Hk ->. rewrite A3 by lia. simpl. eauto.
  - now rewrite E, V.
Qed.
End Products.

(** inner dimension 0 and size mismatches *)
Section Degenerate.
Context {T : Type} {Op : Ops T}.
Lemma product_mismatch (a b : rmat T) bs l k : rc a <> rr b ->
  product a b bs l k = Throw EIncompatibleMatrixInnerSize.
Proof. intros H. unfold product. apply Nat.eqb_neq in H. now rewrite H. Qed.
Lemma product_inner0 (a b : fmat T) bs l k : fc a = 0 -> fr b = 0 -> 0 < fr a -> 0 < fc b ->
  product (of_fmat a) (of_fmat b) bs l k = UB.
Proof.
  intros H1 H2 H3 H4. unfold product. simpl. rewrite H1, H2. simpl. unfold loop.
  destruct (fr a) eqn:R; [lia|]. destruct (fc b) eqn:C; [lia|]. simpl.
  unfold inner. unfold rd at 1. rewrite H1, R. simpl. reflexivity.
Qed.
End Degenerate.

(** ** Ring laws *)
Section Ring.
Context {T : Type} {Op : Ops T}.
Hypothesis RT : ring_theory zero one add mul sub neg (@eq T).
Add Ring TRing : RT.

Lemma ring_add_0_l (x : T) : add zero x = x. Proof using RT. ring. Qed.
Lemma sum_ext n (f g : nat -> T) : (forall i, i < n -> f i = g i) -> sum_n n f = sum_n n g.
Proof. induction n as [|n IH]; simpl; intros H; auto. rewrite IH, H; auto. Qed.
Lemma sum_add n (f g : nat -> T) : sum_n n (fun i => add (f i) (g i)) = add (sum_n n f) (sum_n n g).
Proof using RT. induction n as [|n IH]; simpl; [ring|]. rewrite IH. ring. Qed.
Lemma sum_mul_l n x (f : nat -> T) : sum_n n (fun i => mul x (f i)) = mul x (sum_n n f).
Proof using RT. induction n as [|n IH]; simpl; [ring|]. rewrite IH. ring. Qed.
Lemma sum_mul_r n x (f : nat -> T) : sum_n n (fun i => mul (f i) x) = mul (sum_n n f) x.
Proof using RT. induction n as [|n IH]; simpl; [ring|]. rewrite IH. ring. Qed.
Lemma sum_zero n : sum_n n (fun _ => zero : T) = zero.
Proof using RT. induction n as [|n IH]; simpl; auto. rewrite IH. ring. Qed.
Lemma sum_swap n p (f : nat -> nat -> T) :
  sum_n n (fun i => sum_n p (fun j => f i j)) = sum_n p (fun j => sum_n n (fun i => f i j)).
Proof using RT.
  induction n as [|n IH]; simpl; [now rewrite sum_zero|]. rewrite IH. now rewrite sum_add.
Qed.
Lemma sum_delta n k (f : nat -> T) : k < n ->
  sum_n n (fun i => mul (if Nat.eqb k i then one else zero) (f i)) = f k.
Proof using RT.
  induction n as [|n IH]; simpl; [lia|]. intros H. destruct (Nat.eqb_spec k n) as [->|Hk].
  - rewrite (sum_ext n _ (fun _ => zero)); [rewrite sum_zero; ring|].
    intros i Hi. destruct (Nat.eqb_spec n i); [lia|ring].
  - rewrite IH by lia. ring.
Qed.
Lemma sum_assoc n p (a : nat -> T) (b : nat -> nat -> T) (c : nat -> T) :
  sum_n p (fun q => mul (sum_n n (fun k => mul (a k) (b k q))) (c q)) =
  sum_n n (fun k => mul (a k) (sum_n p (fun q => mul (b k q) (c q)))).
Proof using RT.
  rewrite (sum_ext p _ (fun q => sum_n n (fun k => mul (mul (a k) (b k q)) (c q))))
    by (intros; now rewrite <- sum_mul_r).
  rewrite sum_swap. apply sum_ext. intros k _. rewrite <- sum_mul_l. apply sum_ext. intros q _. ring.
Qed.
Lemma mul_comm_T (x y : T) : mul x y = mul y x. Proof using RT. ring. Qed.
Lemma mul_add_T (x y z : T) : mul x (add y z) = add (mul x y) (mul x z). Proof using RT. ring. Qed.
Lemma mul_id_r n k (f : nat -> T) : k < n ->
  sum_n n (fun i => mul (f i) (if Nat.eqb i k then one else zero)) = f k.
Proof using RT.
  intros H. rewrite <- (sum_delta n k f H). apply sum_ext. intros i _.
  rewrite mul_comm_T. now rewrite Nat.eqb_sym.
Qed.
End Ring.

(** ** Comparison *)
Section Compare.
Context {T : Type} {Op : Ops T}.
Lemma forall_upto_ok n : forall i (p : nat -> out bool) q,
  (forall k, i <= k < i + n -> p k = Ok (q k)) ->
  forall_upto n i p = Ok (forallb q (seq i n)).
Proof.
  induction n as [|n IH]; intros i p q H; simpl; auto. rewrite H by lia. simpl.
  destruct (q i); simpl; auto. apply IH. intros; apply H; lia.
Qed.
Lemma m_eq_l a b r c A B : reads a r c A -> reads b r c B ->
  m_eq a b = Ok (forallb (fun i => forallb (fun j => negb (ltb (A i j) (B i j)) && negb (ltb (B i j) (A i j)))
                   (seq 0 c)) (seq 0 r)).
Proof.
  intros (A1 & A2 & A3) (B1 & B2 & B3). unfold m_eq. rewrite A1, A2, B1, B2, !Nat.eqb_refl. simpl.
  apply forall_upto_ok. intros i Hi. apply forall_upto_ok. intros j Hj.
  rewrite A3, B3 by lia. simpl. destruct (ltb (A i j) (B i j)), (ltb (B i j) (A i j)); reflexivity.
Qed.
Lemma m_eq_true_l a b r c A B : reads a r c A -> reads b r c B ->
  (m_eq a b = Ok true <-> forall i j, i < r -> j < c -> ltb (A i j) (B i j) = false /\ ltb (B i j) (A i j) = false).
Proof.
  intros Ha Hb. rewrite (m_eq_l a b r c A B Ha Hb). split.
  - intros [= H] i j Hi Hj. rewrite forallb_forall in H. specialize (H i). rewrite forallb_forall in H.
    specialize (H (proj2 (in_seq r 0 i) ltac:(lia)) j (proj2 (in_seq c 0 j) ltac:(lia))).
    apply andb_prop in H. destruct H as [H1 H2]. now rewrite negb_true_iff in H1, H2.
  - intros H. f_equal. apply forallb_forall. intros i Hi. apply forallb_forall. intros j Hj.
    apply in_seq in Hi. apply in_seq in Hj. destruct (H i j) as [-> ->]; auto; lia.
Qed.
Lemma m_eq_total_l a b r c A B : reads a r c A -> reads b r c B -> exists v, m_eq a b = Ok v.
Proof. intros Ha Hb. rewrite (m_eq_l a b r c A B Ha Hb). eauto. Qed.
Lemma m_eq_sizes_l (a b : rmat T) : rr a <> rr b \/ rc a <> rc b -> m_eq a b = Ok false.
Proof.
  intros H. unfold m_eq. destruct (Nat.eqb_spec (rr a) (rr b)), (Nat.eqb_spec (rc a) (rc b)); simpl; auto. lia.
Qed.
End Compare.
