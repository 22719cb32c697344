(** Values left in memory by the calls on dynamic matrices. *)
From Coq Require Import List ZArith Bool Arith Lia.
From Verif Require Import Base BaseFacts HeapModel HeapSpec HeapFacts HeapProofs HeapAssign Ownership
  MatModel MatSpec MatProofs MatOps MHeapModel MHeapSpec MHeapFacts MHeapSafe MHeapRefine.
Import ListNotations.

Section MHeapValues.
Context {T : Type}.
Notation mstate := (mstate T).
Notation hexpr := (hexpr T).
Notation N := (N T).

Lemma holds_of_same (s : mstate) o m r c F : exists_m s o -> same_matrix (matrix_of s o) m -> is_mat m r c F ->
  holds s o r c F /\ dlay (m_dim s o) = fl m.
Proof.
  intros He [A [B [C D]]] [X [Y Z]]. simpl in *. split; auto. split; auto. split; [congruence|]. split; [congruence|].
  intros i j Hi Hj. rewrite D by congruence. auto.
Qed.
Lemma is_mat_of_holds (s : mstate) o r c F : holds s o r c F -> is_mat (matrix_of s o) r c F.
Proof. intros [_ [A [B C]]]. repeat split; auto. Qed.

Lemma sched_bad {A} (s s' : mstate) (y : nres T A) P : memory_sound s -> y = NThrow EBadAlloc s' ->
  only_sched s s' -> ~ alloc_ok s -> or_bad_alloc s y P.
Proof.
  intros Hs -> Ho Ha. left. exists s'. destruct (only_sched_facts s s' Ho Hs) as [A1 [A2 _]]. auto.
Qed.

(** what a successful call that writes o leaves *)
Definition wrote (s : mstate) (o r c : nat) (F : nat -> nat -> T) (s' : mstate) : Prop :=
  holds s' o r c F /\ dlay (m_dim s' o) = dlay (m_dim s o) /\
  (forall o', exists_m s' o' <-> exists_m s o') /\ kept_except [o] s s'.

Lemma refined_wrote (s : mstate) o r c F x y : memory_sound s -> exists_m s o ->
  refines_call s o x y ->
  (exists m', x = Ok m' /\ same_type (matrix_of s o) m' /\ is_mat m' r c F) ->
  (exists s', y = NThrow EBadAlloc s' /\ only_sched s s' /\ ~ alloc_ok s /\ r * c <> drows (m_dim s o) * dcols (m_dim s o)) \/
  (exists s', y = NOk tt s' /\ memory_sound s' /\ wrote s o r c F s').
Proof.
  intros Hs He R [m' [-> [[_ [T2 _]] Im]]]. simpl in R. destruct R as [[s' [E1 [E2 [E3 E4]]]]|[s' [E1 [E2 [E3 [E4 E5]]]]]].
  - left. exists s'. destruct Im as [<- [<- _]]. auto.
  - right. exists s'. split; auto. split; auto. destruct (holds_of_same s' o m' r c F) as [H1 H2]; auto; [apply E3; auto|].
    split; auto. split; auto. rewrite H2. exact T2.
Qed.

Lemma assign_l (s : mstate) o e r c F : memory_sound s -> exists_m s o -> denotes s e r c F ->
  ~ under_transpose o e ->
  (exists s', h_assign true o e s = NThrow EBadAlloc s' /\ only_sched s s' /\ ~ alloc_ok s /\
     r * c <> drows (m_dim s o) * dcols (m_dim s o)) \/
  (exists s', h_assign true o e s = NOk tt s' /\ memory_sound s' /\ wrote s o r c F s').
Proof.
  intros Hs He [Ho [Hsh Hv]] Hu. eapply refined_wrote; eauto; [apply assign_refines_l; auto|].
  apply m_assign_l.
  - simpl. rewrite shape_by_value. auto.
  - intros i j Hi Hj. simpl. rewrite val_by_value. auto.
  - apply straight_by_value; auto.
  - simpl. apply own_or_free; auto.
  - exact I.
Qed.

Lemma compound_l (s : mstate) op o e r c M F : memory_sound s -> holds s o r c M -> denotes s e r c F ->
  ~ under_transpose o e ->
  exists s', h_compound true op o e s = NOk tt s' /\ memory_sound s' /\
    wrote s o r c (fun i j => op (M i j) (F i j)) s'.
Proof.
  intros Hs Hh [Ho [Hsh Hv]] Hu. assert (He : exists_m s o) by apply Hh.
  destruct (refined_wrote s o r c (fun i j => op (M i j) (F i j))
     (m_compound op (matrix_of s o) (by_value s o e)) (h_compound true op o e s)) as [[s' [_ [_ [_ N]]]]|H]; auto.
  - apply compound_refines_l; auto.
  - apply m_compound_l.
    + apply is_mat_of_holds; auto.
    + destruct Hh as [_ [Hr [Hc _]]]. rewrite <- Hsh. rewrite <- Hr, <- Hc at 1. apply shape_by_value.
    + intros i j Hi Hj. simpl. rewrite val_by_value. auto.
    + apply straight_by_value; auto.
  - exfalso. apply N. destruct Hh as [_ [-> [-> _]]]. reflexivity.
Qed.

Lemma scale_l (s : mstate) op o k r c M : memory_sound s -> holds s o r c M ->
  exists s', h_scale op o k s = NOk tt s' /\ memory_sound s' /\ wrote s o r c (fun i j => op (M i j) k) s'.
Proof.
  intros Hs Hh. assert (He : exists_m s o) by apply Hh.
  destruct (refined_wrote s o r c (fun i j => op (M i j) k)
     (m_scale op (matrix_of s o) (RVal k)) (h_scale op o k s)) as [[s' [_ [_ [_ N]]]]|H]; auto.
  - apply scale_refines_l; auto.
  - apply m_scale_val_l. apply is_mat_of_holds; auto.
  - exfalso. apply N. destruct Hh as [_ [-> [-> _]]]. reflexivity.
Qed.

Lemma generate_l (s : mstate) o f : memory_sound s -> exists_m s o ->
  exists s', h_generate o f s = NOk tt s' /\ memory_sound s' /\
    wrote s o (drows (m_dim s o)) (dcols (m_dim s o)) f s'.
Proof.
  intros Hs He.
  destruct (refined_wrote s o (drows (m_dim s o)) (dcols (m_dim s o)) f
     (generate (matrix_of s o) f) (h_generate o f s)) as [[s' [_ [_ [_ N]]]]|H]; auto.
  - apply generate_refines_l; auto.
  - destruct (generate_ok (matrix_of s o) f) as [m' H]. exists m'. exact H.
  - exfalso. apply N. reflexivity.
Qed.

(** element lists *)
Lemma put_list_l (s : mstate) o (L : list T) d : memory_sound s -> exists_m s o ->
  length L = drows (m_dim s o) * dcols (m_dim s o) ->
  forall l k sk, k + length l = length L -> (forall n, n < length l -> nth n l d = nth (k + n) L d) ->
  stores o s sk ->
  (forall i j, i < drows (m_dim s o) -> j < dcols (m_dim s o) -> i * dcols (m_dim s o) + j < k ->
     element sk o i j = Some (nth (i * dcols (m_dim s o) + j) L d)) ->
  exists s', h_put_list o (dcols (m_dim s o)) k l sk = NOk tt s' /\ stores o s s' /\
    forall i j, i < drows (m_dim s o) -> j < dcols (m_dim s o) ->
      element s' o i j = Some (nth (i * dcols (m_dim s o) + j) L d).
Proof.
  intros Hs He HL. set (c := dcols (m_dim s o)) in *. set (r := drows (m_dim s o)) in *.
  induction l as [|x l IH]; intros k sk Hk Hn St Hv; simpl in *.
  - exists sk. split; auto. split; auto. intros i j Hi Hj. apply Hv; auto. nia.
  - destruct (Nat.eqb_spec c 0); [nia|].
    assert (Hi : k / c < r) by (apply Nat.div_lt_upper_bound; nia).
    assert (Hj : k mod c < c) by (apply Nat.mod_upper_bound; auto).
    destruct (stores_put o s sk (k / c) (k mod c) x) as [s1 [E [St1 Hc]]]; auto.
    { repeat split; auto. }
    rewrite (bindN_ok _ _ _ _ _ E). apply IH; auto; [lia| |].
    + intros n' Hn'. specialize (Hn (S n') ltac:(lia)). simpl in Hn. rewrite Hn. f_equal. lia.
    + intros i j Hi' Hj' Hlt. unfold element. rewrite (steady_dim s s1) by apply St1. fold r c. rewrite Hc.
      unfold pos. fold r c. destruct (Nat.eq_dec _ _) as [Eq|Ne].
      * destruct (index_inj _ _ _ i j (k / c) (k mod c) Hi' Hj' Hi Hj Eq) as [-> ->].
        assert (Hx := Hn 0 ltac:(lia)). simpl in Hx. rewrite Nat.add_0_r in Hx. rewrite Hx.
        do 2 f_equal. rewrite Nat.mul_comm. apply Nat.div_mod; auto.
      * assert (i * c + j <> k).
        { intros Q. apply Ne. f_equal; rewrite <- Q.
          - rewrite Nat.div_add_l, Nat.div_small by auto. lia.
          - rewrite Nat.add_comm, Nat.mod_add by auto. rewrite Nat.mod_small; auto. }
        specialize (Hv i j Hi' Hj' ltac:(lia)). unfold element in Hv. rewrite (steady_dim s sk) in Hv by apply St.
        exact Hv.
Qed.

Lemma assign_list_mem (s : mstate) ex o l d : memory_sound s -> exists_m s o ->
  length l = drows (m_dim s o) * dcols (m_dim s o) ->
  exists s', h_assign_list ex o l s = NOk tt s' /\ memory_sound s' /\
    wrote s o (drows (m_dim s o)) (dcols (m_dim s o)) (fun i j => nth (i * dcols (m_dim s o) + j) l d) s'.
Proof.
  intros Hs He HL. unfold h_assign_list. rewrite (bindN_ok _ _ s _ s) by (apply get_dim_ok; auto).
  unfold requireN. rewrite HL, Nat.eqb_refl. rewrite (bindN_ok _ _ s tt s) by reflexivity.
  destruct (put_list_l s o l d Hs He HL l 0 s) as [s' [E [St Hv]]]; auto.
  - apply stores_refl.
  - intros; lia.
  - exists s'. split; auto. assert (K := stores_kept o s s' St). destruct St as [St _].
    split; [eapply steady_sound; eauto|]. split; [|split; [now rewrite (steady_dim s s')|split; auto]].
    + split; [apply (steady_exists s s'); auto|]. rewrite !(steady_dim s s') by auto. auto.
    + intros o'. apply (steady_exists s s'); auto.
Qed.

(** ** New objects *)
(** a new object o holds F, nothing else has changed *)
Definition made (s : mstate) (l : layout) (r c : nat) (F : nat -> nat -> T) (o : nat) (s' : mstate) : Prop :=
  ~ exists_m s o /\ holds s' o r c F /\ dlay (m_dim s' o) = l /\
  (forall o', o' <> o -> exists_m s' o' <-> exists_m s o') /\ all_kept s s'.

Lemma fresh_not (s : mstate) : ~ exists_m s (length (objs (heap s))).
Proof. intros [v Hv]. assert (length (objs (heap s)) < length (objs (heap s))) by (apply nth_error_Some; congruence). lia. Qed.

Lemma ctor_made (s s1 : mstate) l r c F : memory_sound s ->
  wrote (fresh_state l s) (length (objs (heap s))) r c F s1 ->
  made s l r c F (length (objs (heap s))) s1.
Proof.
  intros Hs [W1 [W2 [W3 W4]]]. destruct (fresh_facts l s Hs) as [A [B [C [D E]]]]. cbv zeta in *.
  split; [apply fresh_not|]. split; auto. split; [rewrite W2, C; auto|].
  split; [intros o' Hne; rewrite W3; auto|]. intros o' He _. destruct (E o' He) as [E1 [E2 E3]].
  destruct (W4 o') as [K1 K2]; [apply D; auto; lia|simpl; lia|]. split; auto.
  eapply same_matrix_trans; [exact K2|]. apply same_of_cells; auto.
Qed.

Lemma ctor_bad (s s2 : mstate) l : only_sched (fresh_state l s) s2 ->
  only_sched s (MSt (drop_last (heap s2)) (removelast (dims s2))).
Proof.
  intros [H1 [H2 H3]]. repeat split; simpl.
  - rewrite H1. reflexivity.
  - rewrite H2. simpl. apply removelast_last.
  - rewrite H3. simpl. apply removelast_last.
Qed.

Lemma denotes_fresh (s : mstate) l e r c F : memory_sound s -> denotes s e r c F ->
  denotes (fresh_state l s) e r c F /\ ~ In (length (objs (heap s))) (h_objs e).
Proof.
  intros Hs [Ho [Hsh Hv]]. destruct (fresh_facts l s Hs) as [A [B [C [D E]]]]. cbv zeta in *.
  assert (Hd : forall o, In o (h_objs e) -> m_dim (fresh_state l s) o = m_dim s o) by (intros o Hi; apply E; auto).
  assert (He : forall o, In o (h_objs e) -> forall i j, element (fresh_state l s) o i j = element s o i j).
  { intros o Hi i j. unfold element. rewrite Hd by auto. destruct (E o (Ho o Hi)) as [_ [_ ->]]. reflexivity. }
  split; [split; [|split]|].
  - intros o Hi. destruct (E o (Ho o Hi)). apply D; auto. lia.
  - rewrite <- Hsh. clear - Hd. induction e; simpl in *; auto.
    + now rewrite Hd by auto.
    + rewrite IHe1, IHe2; auto; intros; apply Hd, in_or_app; auto.
    + now rewrite IHe.
  - intros i j Hi Hj. rewrite <- Hv by auto. clear - He. revert i j. induction e; simpl in *; intros i j; auto.
    + now rewrite IHe.
    + rewrite IHe1, IHe2; auto; intros; apply He, in_or_app; auto.
    + now rewrite IHe.
  - intros Hi. apply (fresh_not s). auto.
Qed.

Lemma free_no_transpose o (e : hexpr) : ~ In o (h_objs e) -> ~ under_transpose o e.
Proof.
  induction e; simpl; intros H; auto. intros [X|X]; [apply IHe1 in X|apply IHe2 in X]; auto;
    intros Y; apply H, in_or_app; auto.
Qed.

Lemma ctor_expr_l (s : mstate) l e r c F : memory_sound s -> denotes s e r c F ->
  (exists s', h_ctor_expr true l e s = NThrow EBadAlloc s' /\ only_sched s s' /\ ~ alloc_ok s) \/
  (exists s', h_ctor_expr true l e s = NOk (length (objs (heap s))) s' /\ memory_sound s' /\
     length (objs (heap s')) = S (length (objs (heap s))) /\
     made s l r c F (length (objs (heap s))) s').
Proof.
  intros Hs Hd. destruct (denotes_fresh s l e r c F Hs Hd) as [Hd' Hin].
  assert (G := h_ctor_good s l (fun o => h_assign true o e) Hs). cbv zeta in G.
  assert (G1 : sgood (length (objs (heap s))) (fresh_state l s) (h_assign true (length (objs (heap s))) e (fresh_state l s))).
  { apply h_assign_good; auto using fresh_sound, fresh_exists, free_no_transpose. destruct Hd' as [X _]; exact X. }
  specialize (G G1). clear G1.
  unfold h_ctor_expr, h_ctor in *. change (h_default l s) with (NOk (length (objs (heap s))) (fresh_state l s)) in *.
  cbv iota beta in *.
  destruct (assign_l (fresh_state l s) (length (objs (heap s))) e r c F) as [[s' [E [H1 [H2 _]]]]|[s' [E [H1 H2]]]];
    auto using fresh_sound, fresh_exists, free_no_transpose; rewrite E in *.
  - left. eexists. split; [reflexivity|]. split; [apply (ctor_bad s s' l); auto|]. exact H2.
  - right. eexists. split; [reflexivity|]. split; auto. split; [tauto|]. apply ctor_made; auto.
Qed.

(** ** In-place transpose *)
Lemma transpose_l (s : mstate) o r c F : memory_sound s -> holds s o r c F ->
  or_bad_alloc s (h_transpose true o s) (fun _ s' => wrote s o c r (fun i j => F j i) s').
Proof.
  intros Hs Hh. assert (He : exists_m s o) by apply Hh.
  unfold h_transpose. rewrite (bindN_ok _ _ s _ s) by (apply get_dim_ok; auto).
  unfold with_local. set (l := dlay (m_dim s o)).
  assert (Hden : denotes s (HObj o) r c F).
  { split; [intros o' [<-|[]]; auto|]. destruct Hh as [_ [A [B C]]]. simpl. split; [congruence|auto]. }
  set (t := length (objs (heap s))).
  destruct (ctor_expr_l s l (HObj o) r c F Hs Hden) as [[s1 [E [H1 H2]]]|[s1 [E [S1 [_ M1]]]]].
  { rewrite (bindN_throw _ _ _ _ _ E). eapply sched_bad; eauto. }
  fold t in E, M1. rewrite (bindN_ok _ _ _ _ _ E). destruct M1 as [N1 [Ht [Lt [P1 K1]]]].
  assert (Hne : o <> t) by (intros ->; auto).
  assert (X1 : exists_m s1 o) by (apply P1; auto).
  destruct (assign_l s1 o (HTrans (HObj t)) c r (fun i j => F j i)) as [[s2 [_ [_ [_ Hc]]]]|[s2 [E2 [S2 W2]]]]; auto.
  - destruct Ht as [A [B [C D]]]. split; [intros o' [<-|[]]; auto|]. simpl. rewrite B, C. split; auto.
  - simpl. intros [->|[]]; auto.
  - exfalso. apply Hc. destruct (K1 o He) as [_ [Q1 [Q2 _]]]; auto. simpl in Q1, Q2. rewrite Q1, Q2.
    destruct Hh as [_ [-> [-> _]]]. lia.
  - rewrite E2. destruct W2 as [W1 [W2 [W3 W4]]].
    destruct (h_dtor_good s2 t S2) as [s3 [E3 [S3 [P3 [K3 _]]]]]; [apply W3; apply Ht|].
    right. exists tt, s3. split; auto. split; auto.
    destruct (K3 o) as [Y1 Z1]; [apply W3; auto|simpl; intuition|].
    assert (Lo : dlay (m_dim s1 o) = l) by (destruct (K1 o He) as [_ [_ [_ [Q _]]]]; auto).
    split; [|split; [|split]].
    + destruct (holds_of_same s3 o (matrix_of s2 o) c r (fun i j => F j i)) as [Q _]; auto. apply is_mat_of_holds; auto.
    + destruct Z1 as [_ [_ [Q _]]]. simpl in Q. rewrite Q, W2. exact Lo.
    + intros o'. rewrite P3, W3. split.
      * intros [A B]. apply P1; auto.
      * intros A. assert (o' <> t) by (intros ->; auto). split; auto. apply P1; auto.
    + intros o' A B. assert (Hot : o' <> t) by (intros ->; auto).
      destruct (K1 o' A) as [A1 A2]; auto. destruct (W4 o' A1 B) as [A3 A4].
      destruct (K3 o' A3) as [A5 A6]; [simpl; intuition|]. split; auto.
      eapply same_matrix_trans; [eauto|]. eapply same_matrix_trans; eauto.
Qed.

(** ** Sized constructors *)
Lemma ctor_list_l (s : mstate) ex l r c es : memory_sound s ->
  let y := h_ctor l (fun o => bindN (h_resize_fast true o (Z.of_nat r) (Z.of_nat c)) (fun _ =>
                               h_assign_list ex o es)) s in
  (length es = r * c -> forall d,
   or_bad_alloc s y (made s l r c (fun i j => nth (i * c + j) es d))) /\
  (length es <> r * c -> r * c <> 0 -> alloc_ok s ->
   exists s', y = NThrow ex s' /\ leaked s' /\ all_kept s s' /\ (forall o, exists_m s' o <-> exists_m s o)).
Proof.
  intros Hs. cbv zeta. unfold h_ctor. change (h_default l s) with (NOk (length (objs (heap s))) (fresh_state l s)).
  cbv iota beta. destruct (fresh_facts l s Hs) as [A [B [C [D E]]]]. cbv zeta in *.
  set (t := length (objs (heap s))) in *. destruct B as [v Hv].
  destruct (h_resize_fast_spec (fresh_state l s) t r c v A Hv) as [[s1 [Er [Os Ha]]]|[s1 [keep [Er R]]]].
  - rewrite (bindN_throw _ _ _ _ _ Er). split.
    + intros _ d. eapply sched_bad; eauto. eapply ctor_bad; eauto.
    + intros _ _ Ha'. exfalso. apply Ha. exact Ha'.
  - rewrite (bindN_ok _ _ _ _ _ Er).
    assert (S1 := mr_sound _ _ _ _ _ _ R).
    assert (X1 : exists_m s1 t) by (apply (mr_exists _ _ _ _ _ _ R); exists v; auto).
    assert (Md := mr_dim _ _ _ _ _ _ R). rewrite C in Md. simpl in Md.
    assert (Kr := mresized_kept _ _ _ _ _ _ R).
    split.
    + intros HL d. destruct (assign_list_mem s1 ex t es d S1 X1) as [s2 [E2 [S2 [W1 [W2 [W3 W4]]]]]].
      { rewrite Md. auto. }
      rewrite E2. right. exists t, s2. split; auto. split; auto. rewrite Md in W1, W2. simpl in W1, W2.
      apply ctor_made; auto. split; auto. split; [fold t; rewrite C; auto|].
      split; [intros o'; rewrite W3; apply (mr_exists _ _ _ _ _ _ R)|]. fold t. eapply kept_trans; eauto.
    + intros HL Hnz _. unfold h_assign_list. rewrite (bindN_ok _ _ s1 _ s1) by (apply get_dim_ok; auto).
      rewrite Md. cbn [drows dcols]. unfold requireN.
      destruct (Nat.eqb_spec (r * c) (length es)); [congruence|].
      match goal with |- context [bindN ?a ?b s1] => rewrite (bindN_throw a b s1 ex s1) by reflexivity end.
      eexists. split; [reflexivity|].
      assert (L1 : length (objs (heap s1)) = S t).
      { rewrite (mr_len _ _ _ _ _ _ R). simpl. rewrite app_length. simpl. fold t. lia. }
      assert (Hrl : forall o, o < t -> nth_error (removelast (objs (heap s1))) o = nth_error (objs (heap s1)) o).
      { intros o Ho. destruct (exists_last (l := objs (heap s1))) as [l' [x Q]]; [intros Q; rewrite Q in L1; discriminate|].
        rewrite Q in *. rewrite removelast_last. rewrite app_length in L1. simpl in L1. rewrite nth_error_app1 by lia. auto. }
      assert (Hrt : forall o, t <= o -> nth_error (removelast (objs (heap s1))) o = None).
      { intros o Ho. apply nth_error_None. destruct (exists_last (l := objs (heap s1))) as [l' [x Q]]; [intros Q; rewrite Q in L1; discriminate|].
        rewrite Q in *. rewrite removelast_last. rewrite app_length in L1. simpl in L1. lia. }
      assert (Hdl : forall o, o < t -> nth o (removelast (dims s1)) (Dim 0 0 row_major) = m_dim s1 o).
      { intros o Ho. unfold m_dim. assert (Ld : length (dims s1) = S t) by (destruct S1 as [_ [-> _]]; auto).
        destruct (exists_last (l := dims s1)) as [l' [x Q]]; [intros Q; rewrite Q in Ld; discriminate|].
        rewrite Q in *. rewrite removelast_last. rewrite app_length in Ld. simpl in Ld. rewrite app_nth1 by lia. auto. }
      destruct X1 as [v1 Hv1].
      destruct (lincell_some s1 t v1 0 S1 Hv1) as [b [cl [B1 [B2 B3]]]]; [rewrite Md; simpl; lia|].
      split; [|split].
      * destruct (get_block (heap s1) b) as [cs|] eqn:Gb.
        2:{ unfold cellat in B2. rewrite Gb in B2. discriminate. }
        exists b, cs. split; [exact Gb|]. intros o v' off Hv' Ha'. simpl in Hv'.
        assert (o < t). { destruct (Nat.lt_ge_cases o t); auto. rewrite Hrt in Hv' by auto. discriminate. }
        rewrite Hrl in Hv' by auto. destruct S1 as [[_ [U _]] _].
        assert (o = t) by (eapply U; eauto). lia.
      * intros o He _. destruct (E o He) as [E1 [E2 E3]].
        assert (X0 : exists_m (fresh_state l s) o) by (apply D; auto; lia).
        destruct (Kr o X0) as [Y1 Z1]; [simpl; lia|]. split.
        -- destruct Y1 as [v' Hv']. exists v'. simpl. rewrite Hrl; auto.
        -- assert (Q : same_matrix (matrix_of (MSt (drop_last (heap s1)) (removelast (dims s1))) o) (matrix_of s1 o)).
           { apply same_of_cells.
             - unfold m_dim at 1. simpl. apply Hdl; auto.
             - intros k _. unfold lincell. simpl. rewrite Hrl by auto. reflexivity. }
           eapply same_matrix_trans; [exact Q|]. eapply same_matrix_trans; [exact Z1|].
           apply same_of_cells; auto.
      * intros o. split.
        -- intros [v' Hv']. simpl in Hv'. destruct (Nat.lt_ge_cases o t) as [Ho|Ho]; [|rewrite Hrt in Hv' by auto; discriminate].
           rewrite Hrl in Hv' by auto. apply D; [lia|]. apply (mr_exists _ _ _ _ _ _ R). exists v'; auto.
        -- intros He. destruct (E o He) as [E1 _]. assert (X0 : exists_m (fresh_state l s) o) by (apply D; auto; lia).
           apply (mr_exists _ _ _ _ _ _ R) in X0 as [v' Hv']. exists v'. simpl. rewrite Hrl; auto.
Qed.

(** ** m = transpose(m), not square *)
Lemma forN_hits (I : mstate -> Prop) (f : nat -> N unit) n : forall i s k,
  I s -> i <= k < i + n ->
  (forall j sj, i <= j < i + n -> I sj -> (exists s', f j sj = NOk tt s' /\ I s') \/ f j sj = NUB UBMem) ->
  (forall sk, I sk -> f k sk = NUB UBMem) ->
  forN n i f s = NUB UBMem.
Proof.
  induction n as [|n IH]; intros i s k H0 Hk Hs Hb; simpl; [lia|].
  destruct (Nat.eq_dec i k) as [->|Hne]; [apply bindN_ub; auto|].
  destruct (Hs i s) as [[s1 [E1 H1]]|E]; auto; [lia| |apply bindN_ub; auto].
  rewrite (bindN_ok _ _ _ _ _ E1). apply (IH (S i) s1 k); auto; [lia|]. intros j sj Hj. apply Hs. lia.
Qed.

Lemma forN_either (I : mstate -> Prop) (f : nat -> N unit) n : forall i s,
  I s ->
  (forall j sj, i <= j < i + n -> I sj -> (exists s', f j sj = NOk tt s' /\ I s') \/ f j sj = NUB UBMem) ->
  (exists s', forN n i f s = NOk tt s' /\ I s') \/ forN n i f s = NUB UBMem.
Proof.
  induction n as [|n IH]; intros i s H0 Hs; simpl; [left; exists s; auto|].
  destruct (Hs i s) as [[s1 [E1 H1]]|E]; auto; [lia| |right; apply bindN_ub; auto].
  rewrite (bindN_ok _ _ _ _ _ E1). apply IH; auto. intros j sj Hj. apply Hs. lia.
Qed.

Lemma get_outside (s : mstate) o i j : memory_sound s -> exists_m s o ->
  drows (m_dim s o) * dcols (m_dim s o) <> 0 ->
  drows (m_dim s o) * dcols (m_dim s o) <= pos s o i j -> h_get o i j s = NUB UBMem.
Proof.
  intros Hs [v Hv] Hz Hp. unfold h_get. rewrite (bindN_ok _ _ s _ s) by (apply get_dim_ok; [auto|exists v; auto]).
  fold (pos s o i j). unfold lift, obj_get. rewrite (bindM_ok _ _ _ v (heap s)) by (apply get_obj_ok; auto).
  destruct (lincell_some s o v 0 Hs Hv) as [b [cl [E1 [E2 _]]]]; [lia|].
  rewrite E1. unfold HeapModel.rd, rd_cell, bindM. destruct Hs as [[A _] [_ Hl]].
  destruct (A o v Hv) as [v' [X [_ Z]]].
  rewrite Hv in X. injection X as <-. rewrite E1 in Z. destruct Z as [_ [cs [Z1 Z2]]]. rewrite Z1.
  rewrite (Hl o v Hv) in Z2.
  assert (nth_error cs (0 + pos s o i j) = None) as -> by (apply nth_error_None; simpl; lia). reflexivity.
Qed.

(** all elements of o are determinate *)
Definition determinate (o : nat) (s : mstate) : Prop :=
  forall k, k < drows (m_dim s o) * dcols (m_dim s o) -> exists x, lincell s o k = Some (Some x).

Lemma self_transpose_step (s sk : mstate) o i j : memory_sound s -> exists_m s o ->
  i < drows (m_dim s o) -> j < dcols (m_dim s o) ->
  stores o s sk /\ determinate o sk ->
  let f := bindN (h_read (HTrans (HObj o)) i j) (fun x => h_put o i j x) in
  (pos s o j i < drows (m_dim s o) * dcols (m_dim s o) /\
   exists s', f sk = NOk tt s' /\ (stores o s s' /\ determinate o s')) \/
  (drows (m_dim s o) * dcols (m_dim s o) <= pos s o j i /\ f sk = NUB UBMem).
Proof.
  intros Hs He Hi Hj [St Dt]. cbv zeta. simpl.
  assert (Sk : memory_sound sk) by (destruct St as [St _]; eapply steady_sound; eauto).
  assert (Ek : exists_m sk o) by (destruct St as [St _]; apply (steady_exists s sk); auto).
  assert (Dk : m_dim sk o = m_dim s o) by (destruct St as [St _]; apply (steady_dim s sk); auto).
  assert (Pk : forall i j, pos sk o i j = pos s o i j) by (intros; unfold pos; now rewrite Dk).
  destruct (Nat.lt_ge_cases (pos s o j i) (drows (m_dim s o) * dcols (m_dim s o))) as [H|H].
  - left. split; auto.
    assert (exists x, h_get o j i sk = NOk x sk) as [x Ex].
    { unfold h_get. rewrite (bindN_ok _ _ sk _ sk) by (apply get_dim_ok; auto). fold (pos sk o j i). rewrite Pk.
      destruct (Dt (pos s o j i)) as [x Hx]; [now rewrite Dk|]. exists x.
      destruct Ek as [v Hv]. unfold lincell in Hx. rewrite Hv in Hx.
      unfold lift, obj_get. rewrite (bindM_ok _ _ _ v (heap sk)) by (apply get_obj_ok; auto).
      destruct (oaddr v) as [[b off]|]; [|discriminate]. unfold cellat in Hx.
      unfold HeapModel.rd, rd_cell, bindM. destruct (get_block (heap sk) b) as [cs|]; [|discriminate]. rewrite Hx.
      simpl. now rewrite mstate_eta. }
    rewrite (bindN_ok _ _ _ _ _ Ex).
    destruct (stores_put o s sk i j x) as [s' [E [St' Hc]]]; auto; [repeat split; auto|].
    exists s'. split; auto. split; auto. intros k Hk.
    assert (Dk' : m_dim s' o = m_dim s o) by (destruct St' as [St' _]; apply (steady_dim s s'); auto).
    rewrite Hc. destruct (Nat.eq_dec k (pos s o i j)); [eauto|]. apply Dt. rewrite Dk. now rewrite Dk' in Hk.
  - right. split; auto. apply bindN_ub. apply get_outside; auto; rewrite ?Pk, ?Dk; auto. nia.
Qed.

Lemma self_transpose_l (s : mstate) o r c F : memory_sound s -> holds s o r c F -> 0 < r -> 0 < c ->
  match dlay (m_dim s o) with row_major => c < r | col_major => r < c end ->
  h_assign true o (HTrans (HObj o)) s = NUB UBMem.
Proof.
  intros Hs [He [Hr [Hc Hv]]] Hr0 Hc0 Hl. unfold h_assign.
  rewrite (bindN_ok _ _ s tt s).
  2:{ simpl. rewrite (bindN_ok _ _ s _ s) by (apply get_dim_ok; auto). reflexivity. }
  assert (Ho : operands s (HTrans (HObj o))) by (intros o' [<-|[]]; auto).
  rewrite (bindN_ok _ _ _ _ _ (h_dims_ok s _ Hs Ho)). simpl hdim. cbn [fst snd]. rewrite Hr, Hc.
  destruct He as [v Hv'].
  assert (Hz : olen v = r * c) by (destruct Hs as [_ [_ Hz]]; rewrite (Hz o v Hv'), Hr, Hc; auto).
  destruct (h_resize_spec s o c r v Hs Hv') as [[s' [_ [_ [_ Hn]]]]|[s1 [E R]]]; [lia|].
  rewrite (bindN_ok _ _ _ _ _ E).
  assert (S1 := mr_sound _ _ _ _ _ _ R). assert (X1 : exists_m s1 o) by (apply (mr_exists _ _ _ _ _ _ R); exists v; auto).
  assert (Md := mr_dim _ _ _ _ _ _ R).
  assert (D1 : determinate o s1).
  { intros k Hk. rewrite Md in Hk. simpl in Hk. rewrite (mr_keep _ _ _ _ _ _ R) by lia.
    assert (Hu := index_unindex (dlay (m_dim s o)) r c k ltac:(lia)).
    destruct (unindex (dlay (m_dim s o)) r c k) as [i j]. destruct Hu as [U1 [U2 U3]].
    specialize (Hv i j U1 U2). unfold element in Hv. rewrite Hr, Hc, U3 in Hv.
    destruct (lincell s o k); [|discriminate]. exists (F i j). simpl in Hv. now rewrite Hv. }
  set (I := fun sk => stores o s1 sk /\ determinate o sk).
  assert (I1 : I s1) by (split; auto; apply stores_refl).
  assert (Hpos : forall i j, pos s1 o i j = index (dlay (m_dim s o)) c r i j).
  { intros. unfold pos. rewrite Md. reflexivity. }
  assert (Step := fun i j sk Hi Hj (H : I sk) => self_transpose_step s1 sk o i j S1 X1 Hi Hj H). cbv zeta in Step.
  unfold h_each. rewrite (bindN_ok _ _ s1 _ s1) by (apply get_dim_ok; auto). rewrite Md in *. cbn [drows dcols dlay] in *.
  assert (Any : forall i j sk, i < c -> j < r -> I sk ->
    (exists s', bindN (h_read (HTrans (HObj o)) i j) (fun x => h_put o i j x) sk = NOk tt s' /\ I s') \/
    bindN (h_read (HTrans (HObj o)) i j) (fun x => h_put o i j x) sk = NUB UBMem).
  { intros i j sk Hi Hj Hsk. destruct (Step i j sk Hi Hj Hsk) as [[_ H]|[_ H]]; auto. }
  destruct (dlay (m_dim s o)) eqn:El.
  - (* i < c outside, j < r inside; (0, r-1) reads cell (r-1)*r *)
    apply (forN_hits I) with (k := 0); [exact I1|lia| |].
    + intros i si Hi Hsi. apply (forN_either I); auto. intros j sj Hj Hsj. apply Any; auto; lia.
    + intros si Hsi. apply (forN_hits I) with (k := r - 1); [exact Hsi|lia| |].
      * intros j sj Hj Hsj. apply Any; auto; lia.
      * intros sj Hsj. destruct (Step 0 (r - 1) sj ltac:(lia) ltac:(lia) Hsj) as [[H _]|[_ H]]; auto.
        rewrite Hpos in H. simpl in H. nia.
  - apply (forN_hits I) with (k := 0); [exact I1|lia| |].
    + intros j sj Hj Hsj. apply (forN_either I); auto. intros i si Hi Hsi. apply Any; auto; lia.
    + intros sj Hsj. apply (forN_hits I) with (k := c - 1); [exact Hsj|lia| |].
      * intros i si Hi Hsi. apply Any; auto; lia.
      * intros si Hsi. destruct (Step (c - 1) 0 si ltac:(lia) ltac:(lia) Hsi) as [[H _]|[_ H]]; auto.
        rewrite Hpos in H. simpl in H. nia.
Qed.

(** ** Products *)
Context {O : Ops T}.

Lemma h_inner_run (s : mstate) o1 o2 i j (A B : nat -> T) : forall n k acc,
  (forall q, k <= q < k + n -> h_get o1 i q s = NOk (A q) s) ->
  (forall q, k <= q < k + n -> h_get o2 q j s = NOk (B q) s) ->
  exists z, h_inner o1 o2 i j n k acc s = NOk z s /\
    for_n n k (fun q s => x <- Ok (A q) ;; y <- Ok (B q) ;; Ok (add s (mul x y))) acc = Ok z.
Proof.
  induction n as [|n IH]; intros k acc HA HB; simpl.
  - exists acc. split; reflexivity.
  - rewrite (bindN_ok _ _ _ _ _ (HA k ltac:(lia))), (bindN_ok _ _ _ _ _ (HB k ltac:(lia))).
    apply IH; intros q Hq; [apply HA|apply HB]; lia.
Qed.

Lemma product_mem (s : mstate) l o1 o2 r n c A B : (forall x : T, add zero x = x) ->
  memory_sound s -> holds s o1 r n A -> holds s o2 n c B -> 0 < n ->
  or_bad_alloc s (h_product true l o1 o2 s)
    (made s l r c (fun i j => sum_n n (fun q => mul (A i q) (B q j)))).
Proof.
  intros Z0 Hs H1 H2 Hn. assert (X1 : exists_m s o1) by apply H1. assert (X2 : exists_m s o2) by apply H2.
  set (F := fun i j => sum_n n (fun q => mul (A i q) (B q j))).
  destruct H1 as [_ [R1 [C1 V1]]]. destruct H2 as [_ [R2 [C2 V2]]].
  unfold h_product. rewrite (bindN_ok _ _ s _ s) by (apply get_dim_ok; auto).
  rewrite (bindN_ok _ _ s _ s) by (apply get_dim_ok; auto).
  rewrite R1, C1, R2, C2. unfold requireN. rewrite Nat.eqb_refl.
  rewrite (bindN_ok _ _ s tt s) by reflexivity.
  rewrite (bindN_ok _ _ s (length (objs (heap s))) (fresh_state l s)) by reflexivity.
  destruct (fresh_facts l s Hs) as [A0 [B0 [C0 [D0 E0]]]]. cbv zeta in *.
  set (t := length (objs (heap s))) in *. set (s0 := fresh_state l s) in *. destruct B0 as [v Hv].
  destruct (h_resize_spec s0 t r c v A0 Hv) as [[s' [Er [Os [Ha _]]]]|[s1 [Er R]]].
  - rewrite (bindN_throw _ _ _ _ _ Er). destruct (only_sched_facts s0 s' Os A0) as [S1 [K1 P1]].
    destruct (h_dtor_good s' t S1) as [s2 [-> [S2 [P2 [K2 _]]]]]; [apply P1; exists v; auto|].
    left. exists s2. split; auto. split; [exact Ha|]. split; auto. intros o' He _. destruct (E0 o' He) as [F1 [F2 F3]].
    assert (Y0 : exists_m s0 o') by (apply D0; auto; lia).
    destruct (K1 o' Y0) as [Y1 Q1]; auto. destruct (K2 o' Y1) as [Y2 Q2]; [simpl; intuition lia|].
    split; auto. eapply same_matrix_trans; [eauto|]. eapply same_matrix_trans; eauto.
    apply same_of_cells; auto.
  - rewrite (bindN_ok _ _ _ _ _ Er).
    assert (S1 := mr_sound _ _ _ _ _ _ R). assert (Mt := mr_dim _ _ _ _ _ _ R). rewrite C0 in Mt. simpl in Mt.
    assert (Xt : exists_m s1 t) by (apply (mr_exists _ _ _ _ _ _ R); exists v; auto).
    assert (Ops : forall o' r' c' G, exists_m s o' -> drows (m_dim s o') = r' -> dcols (m_dim s o') = c' ->
       (forall i j, i < r' -> j < c' -> element s o' i j = Some (G i j)) ->
       forall sk, stores t s1 sk -> forall i j, i < r' -> j < c' -> h_get o' i j sk = NOk (G i j) sk).
    { intros o' r' c' G He Hr Hc Hg sk Hst i j Hi Hj. destruct (E0 o' He) as [L1 [Q1 Q2]].
      assert (Y0 : exists_m s0 o') by (apply D0; auto; lia).
      assert (Y1 : exists_m s1 o') by (apply (mr_exists _ _ _ _ _ _ R); auto).
      assert (K : same_matrix (matrix_of sk o') (matrix_of s o')).
      { destruct (stores_kept t s1 sk Hst o' Y1) as [_ K1]; [simpl; lia|].
        destruct (mresized_kept _ _ _ _ _ _ R o' Y0) as [_ K2]; [simpl; lia|].
        eapply same_matrix_trans; [exact K1|]. eapply same_matrix_trans; [exact K2|]. apply same_of_cells; auto. }
      assert (St := Hst). destruct St as [St _].
      apply (get_of_rd sk o' (matrix_of s o')); auto; [eapply steady_sound; eauto|apply (steady_exists s1 sk); auto|].
      apply rd_ok; simpl; try lia. auto. }
    set (I := fun k sk => stores t s1 sk /\
       forall i j, i < r -> j < c -> i * c + j < k -> element sk t i j = Some (F i j)).
    match goal with |- context [forN r 0 ?f s1] =>
      assert (G : exists s', forN r 0 f s1 = NOk tt s' /\ I (r * c) s') end.
    { destruct (forN_inv (fun i sk => I (i * c) sk)) with (n := r) (i := 0) (s := s1)
        (f := fun i => forN c 0 (fun j => bindN (h_get o1 i 0) (fun x => bindN (h_get o2 0 j) (fun y =>
            bindN (h_inner o1 o2 i j (n - 1) 1 (mul x y)) (fun m => h_put t i j m))))) as [s' [E H]].
      - split; [apply stores_refl|]. intros; lia.
      - intros i si Hi Hsi.
        destruct (forN_inv (fun j sk => I (i * c + j) sk)) with (n := c) (i := 0) (s := si)
          (f := fun j => bindN (h_get o1 i 0) (fun x => bindN (h_get o2 0 j) (fun y =>
            bindN (h_inner o1 o2 i j (n - 1) 1 (mul x y)) (fun m => h_put t i j m)))) as [s' [E H]].
        + now rewrite Nat.add_0_r.
        + intros j sj Hj [Stj Vj].
          assert (GA := Ops o1 r n A X1 R1 C1 V1 sj Stj i). assert (GB := fun q Hq => Ops o2 n c B X2 R2 C2 V2 sj Stj q j Hq).
          rewrite (bindN_ok _ _ _ _ _ (GA 0 ltac:(lia) ltac:(lia))).
          rewrite (bindN_ok _ _ _ _ _ (GB 0 ltac:(lia) ltac:(lia))).
          destruct (h_inner_run sj o1 o2 i j (A i) (fun q => B q j) (n - 1) 1 (mul (A i 0) (B 0 j))) as [z [Ez Hz]].
          { intros q Hq. apply GA; lia. }
          { intros q Hq. apply GB; lia. }
          assert (z = F i j) as ->.
          { assert (W := inner_ok Z0 n (fun q => Ok (A i q)) (fun q => Ok (B q j)) (A i) (fun q => B q j) Hn
              ltac:(auto) ltac:(auto)). unfold inner, loop in W. simpl in W. simpl in Hz. rewrite Hz in W.
            injection W as W. exact W. }
          rewrite (bindN_ok _ _ _ _ _ Ez).
          destruct (stores_put t s1 sj i j (F i j)) as [s' [E [St' Hc]]]; auto.
          { split; auto. rewrite Mt. simpl. lia. }
          exists s'. split; auto. split; auto. intros i' j' Hi' Hj' Hlt.
          unfold element. rewrite (steady_dim s1 s') by apply St'. rewrite Mt. cbn [drows dcols dlay]. rewrite Hc.
          unfold pos. rewrite Mt. cbn [drows dcols dlay]. destruct (Nat.eq_dec _ _) as [Eq|Ne].
          * destruct (index_inj _ _ _ i' j' i j Hi' Hj' ltac:(lia) ltac:(lia) Eq) as [-> ->]. reflexivity.
          * assert (i' * c + j' <> i * c + j).
            { intros Q. apply Ne. destruct (index_inj row_major r c i' j' i j Hi' Hj' ltac:(lia) ltac:(lia) Q) as [-> ->]. reflexivity. }
            specialize (Vj i' j' Hi' Hj' ltac:(lia)). unfold element in Vj. rewrite (steady_dim s1 sj) in Vj by apply Stj.
            rewrite Mt in Vj. exact Vj.
        + exists s'. split; auto. replace (S i * c) with (i * c + (0 + c)) by lia. exact H.
      - exists s'. split; [exact E|exact H]. }
    destruct G as [s2 [E2 [St V]]]. rewrite E2. right. exists t, s2. split; auto.
    assert (K2 := stores_kept t s1 s2 St). destruct St as [St _]. split; [eapply steady_sound; eauto|].
    apply ctor_made; auto. fold t s0. split; [|split; [|split]].
    + split; [apply (steady_exists s1 s2); auto|]. rewrite !(steady_dim s1 s2) by auto. rewrite Mt. simpl.
      split; auto. split; auto. intros i j Hi Hj. apply V; auto. nia.
    + rewrite (steady_dim s1 s2) by auto. rewrite Mt, C0. reflexivity.
    + intros o'. rewrite (steady_exists s1 s2) by auto. apply (mr_exists _ _ _ _ _ _ R).
    + eapply kept_trans; [eapply mresized_kept; eauto|]. exact K2.
Qed.

End MHeapValues.
