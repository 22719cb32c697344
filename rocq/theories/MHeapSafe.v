(** Memory safety of histories of calls on dynamic matrices. *)
From Coq Require Import List ZArith Bool Arith Lia.
From Verif Require Import Base BaseFacts HeapModel HeapSpec HeapFacts HeapProofs HeapAssign Ownership
  MatModel MatProofs MHeapModel MHeapSpec MHeapFacts.
Import ListNotations.

Section MHeapSafe.
Context {T : Type}.
Notation mstate := (mstate T).
Notation hexpr := (hexpr T).
Notation N := (N T).

Lemma same_matrix_refl (m : fmat T) : same_matrix m m.
Proof. unfold same_matrix; auto. Qed.
Lemma same_matrix_trans (m1 m2 m3 : fmat T) : same_matrix m1 m2 -> same_matrix m2 m3 -> same_matrix m1 m3.
Proof.
  intros [A [B [C D]]] [A' [B' [C' D']]]. repeat split; try congruence.
  intros i j Hi Hj. rewrite D by auto. apply D'; congruence.
Qed.

Lemma kept_refl l (s : mstate) : kept_except l s s.
Proof. intros o He _. split; auto. apply same_matrix_refl. Qed.
Lemma kept_trans l (s1 s2 s3 : mstate) : kept_except l s1 s2 -> kept_except l s2 s3 -> kept_except l s1 s3.
Proof.
  intros A B o He Hn. destruct (A o He Hn) as [A1 A2]. destruct (B o A1 Hn) as [B1 B2].
  split; auto. eapply same_matrix_trans; eauto.
Qed.

(** equal cells make equal matrices *)
Lemma same_of_cells (s s' : mstate) o :
  m_dim s' o = m_dim s o ->
  (forall k, k < drows (m_dim s o) * dcols (m_dim s o) -> lincell s' o k = lincell s o k) ->
  same_matrix (matrix_of s' o) (matrix_of s o).
Proof.
  intros Hd Hc. unfold matrix_of, same_matrix. simpl. rewrite Hd. repeat split; auto.
  intros i j Hi Hj. unfold element. rewrite Hd. rewrite Hc; auto. apply index_bound; auto.
Qed.

Lemma only_sched_facts (s s' : mstate) : only_sched s s' -> memory_sound s ->
  memory_sound s' /\ all_kept s s' /\ (forall o, exists_m s' o <-> exists_m s o).
Proof.
  intros [Hb [Ho Hd]] [A [B C]].
  assert (Hx : forall o, exists_m s' o <-> exists_m s o) by (intros o; unfold exists_m; now rewrite Ho).
  assert (Hdm : forall o, m_dim s' o = m_dim s o) by (intros o; unfold m_dim; now rewrite Hd).
  split; [|split]; auto.
  - split; [|split].
    + eapply sound_ext; eauto.
    + now rewrite Hd, Ho.
    + intros o v Hv. rewrite Hdm. rewrite Ho in Hv. auto.
  - intros o He _. split; [apply Hx; auto|]. apply same_of_cells; auto. intros k _. unfold lincell.
    rewrite Ho. destruct (nth_error (objs (heap s)) o) as [[v|]|]; auto. destruct (oaddr v) as [[b off]|]; auto.
    unfold cellat. now rewrite (blocks_get_block _ _ _ Hb).
Qed.

(** a loop that stores into o only *)
Definition stores (o : nat) (s0 s : mstate) : Prop :=
  steady s0 s /\ forall o' k, o' <> o -> exists_m s0 o' -> lincell s o' k = lincell s0 o' k.
Lemma stores_refl o (s : mstate) : stores o s s.
Proof. split; auto. apply steady_refl. Qed.

Lemma stores_put o (s0 s : mstate) i j x : memory_sound s0 -> stores o s0 s -> in_m s0 o i j ->
  exists s', h_put o i j x s = NOk tt s' /\ stores o s0 s' /\
    forall k, lincell s' o k = if Nat.eq_dec k (pos s0 o i j) then Some (Some x) else lincell s o k.
Proof.
  intros Hs [St Hc] Hin. destruct (h_put_ok s o i j x) as [s' [E [St' Hc']]].
  - eapply steady_sound; eauto.
  - eapply steady_in; eauto.
  - exists s'. split; auto. split; [split; [eapply steady_trans; eauto|]|].
    + intros o' k Hne He. rewrite Hc'.
      * destruct (Nat.eq_dec o' o); [congruence|]. apply Hc; auto.
      * apply (steady_exists s0 s); auto.
    + intros k. rewrite Hc'.
      * destruct (Nat.eq_dec o o); [|congruence]. unfold pos. now rewrite (steady_dim s0 s) by auto.
      * apply (steady_exists s0 s); auto. apply Hin.
Qed.

Lemma stores_kept o (s0 s : mstate) : stores o s0 s -> kept_except [o] s0 s.
Proof.
  intros [St Hc] o' He Hn. split; [apply (steady_exists s0 s); auto|].
  apply same_of_cells; [apply (steady_dim s0 s); auto|]. intros k _. apply Hc; auto.
  intros ->. apply Hn. simpl; auto.
Qed.

Lemma mresized_kept (s s' : mstate) o r c keep : mresized s s' o r c keep -> kept_except [o] s s'.
Proof.
  intros R o' He Hn. assert (o' <> o) by (intros ->; apply Hn; simpl; auto).
  split; [apply (mr_exists _ _ _ _ _ _ R); auto|].
  apply same_of_cells; [apply (mr_dim_other _ _ _ _ _ _ R); auto|].
  intros k Hk. apply (mr_other _ _ _ _ _ _ R); auto.
Qed.

(** Outcome of a call on o that creates and destroys nothing. *)
Definition sgood (o : nat) (s : mstate) (r : nres T unit) : Prop :=
  match r with
  | NOk _ s' => memory_sound s' /\ length (objs (heap s')) = length (objs (heap s)) /\
                (forall o', exists_m s' o' <-> exists_m s o') /\ kept_except [o] s s'
  | NThrow _ s' => only_sched s s'
  | NUB u => u = UBIndet
  end.

Lemma only_sched_refl (s : mstate) : only_sched s s.
Proof. repeat split. Qed.

Lemma mresized_sgood (s s' : mstate) o r c keep : mresized s s' o r c keep -> sgood o s (NOk tt s').
Proof.
  intros R. split; [apply (mr_sound _ _ _ _ _ _ R)|]. split; [apply (mr_len _ _ _ _ _ _ R)|].
  split; [apply (mr_exists _ _ _ _ _ _ R)|eapply mresized_kept; eauto].
Qed.
Lemma stores_sgood (s s' : mstate) o : memory_sound s -> stores o s s' -> sgood o s (NOk tt s').
Proof.
  intros Hs H. assert (H' := H). destruct H' as [St _].
  split; [eapply steady_sound; eauto|]. split; [destruct St as [[-> _] _]; auto|].
  split; [intros o'; apply steady_exists; auto|]. apply stores_kept; auto.
Qed.
Lemma sgood_seq (s s1 : mstate) o (r : nres T unit) :
  sgood o s (NOk tt s1) -> sgood o s1 r -> (forall e s', r <> NThrow e s') -> sgood o s r.
Proof.
  intros [A1 [A2 [A3 A4]]] H Hn. destruct r as [u s'|e s'|u]; [|exfalso; eapply Hn; eauto|auto].
  destruct H as [B1 [B2 [B3 B4]]]. split; auto. split; [congruence|].
  split; [intros o'; rewrite B3; auto|eapply kept_trans; eauto].
Qed.

Lemma h_resize_good (s : mstate) o r c : memory_sound s -> exists_m s o ->
  sgood o s (h_resize true o r c s) /\ sgood o s (h_resize_fast true o r c s).
Proof.
  intros Hs [v Hv].
  destruct (Z.ltb_spec r 0); [|destruct (Z.ltb_spec c 0)].
  - destruct (h_resize_neg s o r c) as [-> ->]; auto. split; apply only_sched_refl.
  - destruct (h_resize_neg s o r c) as [-> ->]; auto. split; apply only_sched_refl.
  - rewrite <- (Z2Nat.id r), <- (Z2Nat.id c) by auto. split.
    + destruct (h_resize_spec s o (Z.to_nat r) (Z.to_nat c) v Hs Hv) as [[s' [-> [E _]]]|[s' [-> R]]]; auto.
      eapply mresized_sgood; eauto.
    + destruct (h_resize_fast_spec s o (Z.to_nat r) (Z.to_nat c) v Hs Hv) as [[s' [-> [E _]]]|[s' [keep [-> R]]]]; auto.
      eapply mresized_sgood; eauto.
Qed.

(** element loops *)
Lemma each_good (s : mstate) o (f : nat -> nat -> N unit) : memory_sound s -> exists_m s o ->
  (forall i j sk, i < drows (m_dim s o) -> j < dcols (m_dim s o) -> stores o s sk ->
     (exists s', f i j sk = NOk tt s' /\ stores o s s') \/ f i j sk = NUB UBIndet) ->
  sgood o s (h_each o f s) /\ forall e s', h_each o f s <> NThrow e s'.
Proof.
  intros Hs He Hf.
  destruct (h_each_safe (stores o s) s o f Hs He (stores_refl o s) Hf) as [[s' [-> H]]| ->].
  - split; [apply stores_sgood; auto|discriminate].
  - split; [reflexivity|discriminate].
Qed.

Lemma put_step (s sk : mstate) o i j x : memory_sound s -> exists_m s o ->
  i < drows (m_dim s o) -> j < dcols (m_dim s o) -> stores o s sk ->
  (exists s', h_put o i j x sk = NOk tt s' /\ stores o s s') \/ h_put o i j x sk = NUB UBIndet.
Proof.
  intros Hs He Hi Hj Hk. destruct (stores_put o s sk i j x) as [s' [E [H _]]]; auto; [repeat split; auto|].
  left; eauto.
Qed.

(** expression reads during a loop that started in s *)
Lemma read_step (s sk : mstate) o e i j : memory_sound s -> operands s e -> fitting s e ->
  i < fst (hdim s e) -> j < snd (hdim s e) -> stores o s sk ->
  (exists x, h_read e i j sk = NOk x sk) \/ h_read e i j sk = NUB UBIndet.
Proof.
  intros Hs Ho F Hi Hj [St _].
  assert (Hd : forall o', In o' (h_objs e) -> m_dim sk o' = m_dim s o') by (intros; apply (steady_dim s sk); auto).
  apply h_read_safe.
  - eapply steady_sound; eauto.
  - intros o' Hin. apply (steady_exists s sk); auto.
  - eapply fitting_steady; eauto.
  - now rewrite (hdim_steady s sk).
  - now rewrite (hdim_steady s sk).
Qed.

(** what check_or_resize leaves behind *)
Lemma resize_then (s : mstate) o e (k : N unit) : memory_sound s -> exists_m s o -> operands s e ->
  fitting s e -> ~ under_transpose o e ->
  (forall s1, memory_sound s1 -> exists_m s1 o -> operands s1 e -> fitting s1 e ->
     (drows (m_dim s1 o), dcols (m_dim s1 o)) = hdim s1 e ->
     sgood o s1 (k s1) /\ forall ex s', k s1 <> NThrow ex s') ->
  sgood o s (bindN (h_resize true o (Z.of_nat (fst (hdim s e))) (Z.of_nat (snd (hdim s e)))) (fun _ => k) s).
Proof.
  intros Hs [v Hv] Ho F Hu Hk. destruct (hdim s e) as [r c] eqn:Hd. cbn [fst snd].
  destruct (h_resize_spec s o r c v Hs Hv) as [[s' [E [H _]]]|[s1 [E R]]].
  { rewrite (bindN_throw _ _ _ _ _ E). exact H. }
  rewrite (bindN_ok _ _ _ _ _ E).
  assert (Hdm : forall o', In o' (h_objs e) -> m_dim s1 o' = m_dim s o').
  { intros o' Hin. destruct (Nat.eq_dec o' o) as [->|].
    - rewrite (mr_dim _ _ _ _ _ _ R). assert (H := leaf_dim s o e F Hin Hu). rewrite Hd in H.
      injection H as -> ->. destruct (m_dim s o); reflexivity.
    - apply (mr_dim_other _ _ _ _ _ _ R); auto. }
  destruct (Hk s1) as [K1 K2].
  - apply (mr_sound _ _ _ _ _ _ R).
  - apply (mr_exists _ _ _ _ _ _ R). exists v; auto.
  - intros o' Hin. apply (mr_exists _ _ _ _ _ _ R). auto.
  - eapply fitting_steady; eauto.
  - rewrite (hdim_steady s s1) by auto. rewrite (mr_dim _ _ _ _ _ _ R), Hd. reflexivity.
  - eapply sgood_seq; eauto. eapply mresized_sgood; eauto.
Qed.

Lemma h_assign_good (s : mstate) o e : memory_sound s -> exists_m s o -> operands s e ->
  ~ under_transpose o e -> sgood o s (h_assign true o e s).
Proof.
  intros Hs He Ho Hu. unfold h_assign.
  destruct (h_build_ok s e Hs Ho) as [[F Eb]|[_ Eb]]; [|rewrite (bindN_throw _ _ _ _ _ Eb); apply only_sched_refl].
  rewrite (bindN_ok _ _ _ _ _ Eb), (bindN_ok _ _ _ _ _ (h_dims_ok s e Hs Ho)).
  apply resize_then; auto. intros s1 Hs1 He1 Ho1 F1 Hd1. apply each_good; auto.
  intros i j sk Hi Hj Hk. 
  destruct (read_step s1 sk o e i j) as [[x E]|E]; auto; try (rewrite <- Hd1; auto); [|right; apply bindN_ub; auto].
  rewrite (bindN_ok _ _ _ _ _ E). apply put_step; auto.
Qed.

Lemma get_step (s sk : mstate) o o' i j : memory_sound s -> exists_m s o' ->
  i < drows (m_dim s o') -> j < dcols (m_dim s o') -> stores o s sk ->
  (exists x, h_get o' i j sk = NOk x sk) \/ h_get o' i j sk = NUB UBIndet.
Proof.
  intros Hs He Hi Hj [St _]. assert (H := h_get_ok sk o' i j (steady_sound _ _ St Hs)).
  destruct (element sk o' i j); [left; eexists|right]; apply H; eapply steady_in; eauto; repeat split; auto.
Qed.

Lemma h_compound_good (s : mstate) f o e : memory_sound s -> exists_m s o -> operands s e ->
  ~ under_transpose o e -> sgood o s (h_compound true f o e s).
Proof.
  intros Hs He Ho Hu. unfold h_compound.
  destruct (h_build_ok s e Hs Ho) as [[F Eb]|[_ Eb]]; [|rewrite (bindN_throw _ _ _ _ _ Eb); apply only_sched_refl].
  rewrite (bindN_ok _ _ _ _ _ Eb), (bindN_ok _ _ _ _ _ (h_dims_ok s e Hs Ho)).
  apply resize_then; auto. intros s1 Hs1 He1 Ho1 F1 Hd1. apply each_good; auto.
  intros i j sk Hi Hj Hk.
  destruct (get_step s1 sk o o i j) as [[y E0]|E0]; auto; [|right; apply bindN_ub; auto].
  rewrite (bindN_ok _ _ _ _ _ E0).
  destruct (read_step s1 sk o e i j) as [[x E]|E]; auto; try (rewrite <- Hd1; auto); [|right; apply bindN_ub; auto].
  rewrite (bindN_ok _ _ _ _ _ E). apply put_step; auto.
Qed.

Lemma h_scale_good (s : mstate) f o k : memory_sound s -> exists_m s o -> sgood o s (h_scale f o k s).
Proof.
  intros Hs He. apply each_good; auto. intros i j sk Hi Hj Hk.
  destruct (get_step s sk o o i j) as [[y E0]|E0]; auto; [|right; apply bindN_ub; auto].
  rewrite (bindN_ok _ _ _ _ _ E0). apply put_step; auto.
Qed.

Lemma h_generate_good (s : mstate) f o : memory_sound s -> exists_m s o -> sgood o s (h_generate o f s).
Proof. intros Hs He. apply each_good; auto. intros i j sk Hi Hj Hk. apply put_step; auto. Qed.

Lemma put_list_run (s : mstate) o : memory_sound s -> exists_m s o ->
  forall l k sk, stores o s sk -> k + length l <= drows (m_dim s o) * dcols (m_dim s o) ->
  exists s', h_put_list o (dcols (m_dim s o)) k l sk = NOk tt s' /\ stores o s s'.
Proof.
  intros Hs He. induction l as [|x l IH]; intros k sk Hk Hl; simpl in *; [eexists; split; eauto; reflexivity|].
  set (c := dcols (m_dim s o)) in *. destruct (Nat.eqb_spec c 0); [rewrite e in Hl; lia|].
  destruct (stores_put o s sk (k / c) (k mod c) x) as [s1 [E [H1 _]]]; auto.
  - split; auto. fold c. split; [apply Nat.div_lt_upper_bound; lia|apply Nat.mod_upper_bound; auto].
  - rewrite (bindN_ok _ _ _ _ _ E). apply IH; auto. lia.
Qed.

Lemma h_assign_list_good (s : mstate) ex o l : memory_sound s -> exists_m s o ->
  sgood o s (h_assign_list ex o l s) /\
  (length l = drows (m_dim s o) * dcols (m_dim s o) -> forall e s', h_assign_list ex o l s <> NThrow e s').
Proof.
  intros Hs He. unfold h_assign_list. rewrite (bindN_ok _ _ s _ s) by (apply get_dim_ok; auto).
  unfold requireN. destruct (Nat.eqb_spec (drows (m_dim s o) * dcols (m_dim s o)) (length l)) as [E|E].
  - rewrite (bindN_ok _ _ s tt s) by reflexivity.
    destruct (put_list_run s o Hs He l 0 s) as [s' [-> H]]; [apply stores_refl|lia|].
    split; [apply stores_sgood; auto|discriminate].
  - split; [apply only_sched_refl|]. intros; congruence.
Qed.

(** ** Creation and destruction *)
Definition fresh_state (l : layout) (s : mstate) : mstate :=
  MSt (St (blocks (heap s)) (objs (heap s) ++ [Some (VObj KAllocated None 0)]) (sched (heap s)))
      (dims s ++ [Dim 0 0 l]).

Lemma fresh_facts l (s : mstate) : memory_sound s ->
  let s1 := fresh_state l s in let o := length (objs (heap s)) in
  memory_sound s1 /\ exists_m s1 o /\ m_dim s1 o = Dim 0 0 l /\
  (forall o', o' <> o -> exists_m s1 o' <-> exists_m s o') /\
  (forall o', exists_m s o' -> o' < o /\ m_dim s1 o' = m_dim s o' /\ forall k, lincell s1 o' k = lincell s o' k).
Proof.
  intros [A [B C]]. cbv zeta. set (s1 := fresh_state l s). set (o := length (objs (heap s))).
  assert (Hlt : forall o', exists_m s o' -> o' < o).
  { intros o' [v Hv]. apply nth_error_Some. congruence. }
  assert (Hold : forall o', o' < o -> nth_error (objs (heap s1)) o' = nth_error (objs (heap s)) o').
  { intros o' H. simpl. apply nth_error_app1; auto. }
  assert (Hd : forall o', o' < o -> m_dim s1 o' = m_dim s o').
  { intros o' H. unfold m_dim. simpl. apply app_nth1. unfold o in H. lia. }
  assert (Hn : nth_error (objs (heap s1)) o = Some (Some (VObj KAllocated None 0))).
  { simpl. unfold o. rewrite nth_error_app2 by auto. now rewrite Nat.sub_diag. }
  assert (Hdn : m_dim s1 o = Dim 0 0 l).
  { unfold m_dim, o. simpl. rewrite <- B. rewrite app_nth2 by auto. now rewrite Nat.sub_diag. }
  split; [|split; [|split; [auto|split]]].
  - split; [apply sound_new; auto|]. split; [simpl; rewrite !app_length; simpl; lia|].
    intros o' v Hv. destruct (Nat.lt_trichotomy o' o) as [H|[->|H]].
    + rewrite Hd by auto. rewrite Hold in Hv by auto. auto.
    + rewrite Hn in Hv. injection Hv as <-. rewrite Hdn. reflexivity.
    + assert (o' < length (objs (heap s1))) by (apply nth_error_Some; congruence).
      simpl in H0. rewrite app_length in H0. simpl in H0. unfold o in H. lia.
  - eexists; eauto.
  - intros o' Hne. unfold exists_m. destruct (Nat.lt_ge_cases o' o) as [H|H]; [now rewrite Hold|].
    split; intros [v Hv].
    + assert (o' < length (objs (heap s1))) by (apply nth_error_Some; congruence).
      simpl in H0. rewrite app_length in H0. simpl in H0. unfold o in *. lia.
    + assert (o' < o) by (apply nth_error_Some; congruence). lia.
  - intros o' He. split; auto. split; [apply Hd; auto|]. intros k. unfold lincell.
    rewrite Hold by auto. destruct (nth_error (objs (heap s)) o') as [[v|]|]; auto.
Qed.

Lemma fresh_sound l (s : mstate) : memory_sound s -> memory_sound (fresh_state l s).
Proof. intros H. exact (proj1 (fresh_facts l s H)). Qed.
Lemma fresh_exists l (s : mstate) : memory_sound s -> exists_m (fresh_state l s) (length (objs (heap s))).
Proof. intros H. exact (proj1 (proj2 (fresh_facts l s H))). Qed.

(** Outcome of a call in general: the memory stays sound, and a throw changes no
    matrix. *)
Definition goodN (s : mstate) (r : nres T unit) : Prop :=
  match r with
  | NOk _ s' => memory_sound s'
  | NThrow _ s' => memory_sound s' /\ all_kept s s'
  | NUB u => u = UBIndet
  end.
Lemma sgood_goodN o (s : mstate) r : memory_sound s -> sgood o s r -> goodN s r.
Proof.
  intros Hs. destruct r as [[] s'|e s'|u]; simpl; auto; [tauto|].
  intros H. destruct (only_sched_facts s s' H Hs) as [A [B _]]. auto.
Qed.

(** constructors whose body throws only before it allocates *)
Lemma h_ctor_good (s : mstate) l (body : nat -> N unit) : memory_sound s ->
  (let o := length (objs (heap s)) in sgood o (fresh_state l s) (body o (fresh_state l s))) ->
  match h_ctor l body s with
  | NOk o s' => o = length (objs (heap s)) /\ memory_sound s' /\ exists_m s' o /\
                length (objs (heap s')) = S o /\
                (forall o', o' <> o -> exists_m s' o' <-> exists_m s o') /\ all_kept s s'
  | NThrow _ s' => only_sched s s'
  | NUB u => u = UBIndet
  end.
Proof.
  intros Hs. cbv zeta. intros Hb. destruct (fresh_facts l s Hs) as [A [B [C [D E]]]]. cbv zeta in *.
  unfold h_ctor. change (h_default l s) with (NOk (length (objs (heap s))) (fresh_state l s)).
  cbv iota beta. set (o := length (objs (heap s))) in *.
  destruct (body o (fresh_state l s)) as [[] s2|ex s2|u]; auto.
  - destruct Hb as [H1 [H2 [H3 H4]]]. split; auto. split; auto. split; [apply H3; auto|]. split; [|split].
    + rewrite H2. simpl. rewrite app_length. simpl. fold o. lia.
    + intros o' Hne. rewrite H3. apply D; auto.
    + intros o' He _. destruct (E o' He) as [E1 [E2 E3]].
      destruct (H4 o') as [K1 K2].
      * apply D; auto. lia.
      * simpl. lia.
      * split; auto. eapply same_matrix_trans; [exact K2|]. apply same_of_cells; auto.
  - destruct Hb as [H1 [H2 H3]]. repeat split; simpl.
    + rewrite H1. reflexivity.
    + rewrite H2. simpl. apply removelast_last.
    + rewrite H3. simpl. apply removelast_last.
Qed.

Lemma h_dtor_run (s : mstate) o v : memory_sound s -> nth_error (objs (heap s)) o = Some (Some v) ->
  h_dtor true o s = match dtor true o (heap s) with
                    | ROk _ h => NOk tt (MSt h (dims s))
                    | RThrow e h => NThrow e (MSt h (dims s))
                    | RUB u => NUB u
                    end.
Proof.
  intros Hs Hv. unfold h_dtor.
  rewrite (bindN_ok _ _ s _ s) by (apply get_dim_ok; [auto|exists v; auto]).
  destruct Hs as [_ [_ Hz]]. rewrite <- (Hz o v Hv).
  rewrite (bindN_ok _ _ s v s).
  2:{ erewrite lift_ok; [|apply get_obj_ok; eauto]. now rewrite mstate_eta. }
  unfold dtor. rewrite (bindM_ok _ _ _ v (heap s)) by (apply get_obj_ok; auto).
  unfold bindN, lift, bindM. simpl.
  destruct (dealloc (oaddr v) (olen v) (heap s)) as [[] h|e h|u]; simpl; auto.
  destruct (set_obj o None h) as [[] h'|e h'|u]; auto.
Qed.

Lemma dealloc_cells (s s' : state T) b off n : dealloc (Some (b, off)) n s = ROk tt s' ->
  objs s' = objs s /\ forall b', b' <> b -> get_block s' b' = get_block s b'.
Proof.
  unfold dealloc. destruct (get_block s b) as [cs|] eqn:E; [|discriminate].
  destruct (Nat.eqb off 0 && Nat.eqb (length cs) n); [|discriminate].
  destruct (set_block_ok s b Freed (get_block_bound _ _ _ E)) as [s2 [-> [Ho [_ [_ Hg]]]]].
  intros H. injection H as <-. split; auto. intros b' Hne. rewrite Hg.
  destruct (Nat.eq_dec b' b); congruence.
Qed.

Lemma h_dtor_good (s : mstate) o : memory_sound s -> exists_m s o ->
  exists s', h_dtor true o s = NOk tt s' /\ memory_sound s' /\
    (forall o', exists_m s' o' <-> (o' <> o /\ exists_m s o')) /\ kept_except [o] s s' /\
    length (objs (heap s')) = length (objs (heap s)).
Proof.
  intros Hs [v Hv]. rewrite (h_dtor_run s o v Hs Hv). destruct Hs as [Hs [B C]].
  destruct (dtor_good (heap s) o v Hs Hv) as [h [E [H1 [H2 H3]]]].
  assert (Hg : forall o' v' b off, o' <> o -> nth_error (objs (heap s)) o' = Some (Some v') ->
     oaddr v' = Some (b, off) -> get_block h b = get_block (heap s) b).
  { intros o' v' b off Hne Hv' Ha. unfold dtor in E.
    rewrite (bindM_ok _ _ _ v (heap s)) in E by (apply get_obj_ok; auto).
    rewrite (bindM_ok _ _ _ tt (heap s)) in E by reflexivity.
    destruct (dealloc (oaddr v) (olen v) (heap s)) as [[] h1|e h1|u] eqn:E1;
      [|rewrite (bindM_throw _ _ _ _ _ E1) in E; discriminate|rewrite (bindM_ub _ _ _ _ E1) in E; discriminate].
    rewrite (bindM_ok _ _ _ _ _ E1) in E.
    assert (Hb : blocks h = blocks h1).
    { unfold set_obj in E. destruct (list_put (objs h1) o None); [|discriminate]. injection E as <-. reflexivity. }
    rewrite (blocks_get_block _ _ b Hb). destruct (oaddr v) as [[b0 f0]|] eqn:Ea.
    - destruct (dealloc_cells _ _ _ _ _ E1) as [_ Hd]. apply Hd. intros ->. apply Hne.
      destruct Hs as [_ [U _]]. eapply U; eauto.
    - simpl in E1. injection E1 as <-. reflexivity. }
  rewrite E. eexists. split; [reflexivity|].
  assert (Hx : forall o', exists_m (MSt h (dims s)) o' <-> (o' <> o /\ exists_m s o')).
  { intros o'. unfold exists_m. simpl. rewrite H2. destruct (Nat.eq_dec o' o).
    - split; [intros [v' Hv']; discriminate|tauto].
    - tauto. }
  split; [|split; [|split]]; auto.
  - split; auto. split; [simpl; lia|]. intros o' v' Hv'. simpl in Hv'. rewrite H2 in Hv'.
    destruct (Nat.eq_dec o' o); [discriminate|]. apply C; auto.
  - intros o' [v' Hv'] Hn. assert (Hne : o' <> o) by (intros ->; apply Hn; simpl; auto).
    split; [apply Hx; split; [auto|exists v'; auto]|]. apply same_of_cells; auto. intros k _.
    unfold lincell. simpl. rewrite H2. destruct (Nat.eq_dec o' o); [congruence|]. rewrite Hv'.
    destruct (oaddr v') as [[b off]|] eqn:Ea; auto. apply cellat_get_block. eapply Hg; eauto.
Qed.

(** ** In-place transpose *)
Lemma kept_weaken l1 l2 (s s' : mstate) : (forall o, In o l1 -> In o l2) ->
  kept_except l1 s s' -> kept_except l2 s s'.
Proof. intros H K o He Hn. apply K; auto. Qed.

Lemma h_transpose_good (s : mstate) o : memory_sound s -> exists_m s o -> goodN s (h_transpose true o s).
Proof.
  intros Hs He. unfold h_transpose. rewrite (bindN_ok _ _ s _ s) by (apply get_dim_ok; auto).
  unfold with_local, h_ctor_expr. set (l := dlay (m_dim s o)).
  assert (Hlt : o < length (objs (heap s))) by (destruct He as [v Hv]; apply nth_error_Some; congruence).
  assert (K := h_ctor_good s l (fun t => h_assign true t (HObj o)) Hs).
  destruct (fresh_facts l s Hs) as [A [B [C [D E]]]]. cbv zeta in *.
  assert (K1 : sgood (length (objs (heap s))) (fresh_state l s)
                 (h_assign true (length (objs (heap s))) (HObj o) (fresh_state l s))).
  { apply h_assign_good; auto. intros o' [<-|[]]. apply D; auto. lia. }
  specialize (K K1). clear K1.
  destruct (h_ctor l (fun t => h_assign true t (HObj o)) s) as [t s1|ex s1|u] eqn:Ec.
  - rewrite (bindN_ok _ _ _ _ _ Ec). destruct K as [Et [S1 [X1 [L1 [P1 K1]]]]]. rewrite <- Et in *.
    assert (Hne : o <> t) by lia.
    assert (X2 : exists_m s1 o) by (apply P1; auto).
    assert (G : sgood o s1 (h_assign true o (HTrans (HObj t)) s1)).
    { apply h_assign_good; auto.
      - intros o' [<-|[]]; auto.
      - simpl. intros [->|[]]; congruence. }
    destruct (h_assign true o (HTrans (HObj t)) s1) as [[] s2|ex s2|u].
    + destruct G as [G1 [G2 [G3 G4]]]. destruct (h_dtor_good s2 t G1) as [s3 [-> [S3 _]]]; auto. apply G3; auto.
    + destruct (only_sched_facts s1 s2 G S1) as [S2 [K2 P2]].
      destruct (h_dtor_good s2 t S2) as [s3 [-> [S3 [P3 [K3 _]]]]]; [apply P2; auto|].
      split; auto. intros o' He' _.
      assert (Ho' : o' <> t). { destruct He' as [v' Hv']. assert (o' < length (objs (heap s))) by (apply nth_error_Some; congruence). lia. }
      destruct (K1 o' He') as [Y1 Z1]; auto. destruct (K2 o' Y1) as [Y2 Z2]; auto.
      destruct (K3 o' Y2) as [Y3 Z3]; [simpl; intuition|].
      split; auto. eapply same_matrix_trans; [eauto|]. eapply same_matrix_trans; eauto.
    + exact G.
  - rewrite (bindN_throw _ _ _ _ _ Ec). destruct (only_sched_facts s s1 K Hs) as [S1 [K1 _]]. split; auto.
  - rewrite (bindN_ub _ _ _ _ Ec). exact K.
Qed.

(** ** Move *)
Lemma m_dim_two (s s2 : mstate) ds1 ds2 o1 o2 r1 c1 r2 c2 :
  (forall o, nth o ds1 (Dim 0 0 row_major) =
     if Nat.eq_dec o o1 then Dim r1 c1 (dlay (m_dim s o1)) else m_dim s o) ->
  (forall o, nth o ds2 (Dim 0 0 row_major) =
     if Nat.eq_dec o o2 then Dim r2 c2 (dlay (nth o2 ds1 (Dim 0 0 row_major)))
     else nth o ds1 (Dim 0 0 row_major)) ->
  dims s2 = ds2 ->
  forall o, m_dim s2 o = if Nat.eq_dec o o2 then Dim r2 c2 (dlay (m_dim s o2))
                         else if Nat.eq_dec o o1 then Dim r1 c1 (dlay (m_dim s o1)) else m_dim s o.
Proof.
  intros H1 H2 E o. unfold m_dim at 1. rewrite E, H2. destruct (Nat.eq_dec o o2).
  - f_equal. rewrite H1. destruct (Nat.eq_dec o2 o1); subst; reflexivity.
  - apply H1.
Qed.

(** move assignment swaps the two matrices *)
Lemma h_move_assign_run (s : mstate) o1 o2 : memory_sound s -> exists_m s o1 -> exists_m s o2 ->
  dlay (m_dim s o1) = dlay (m_dim s o2) ->
  exists s', h_move_assign o1 o2 s = NOk tt s' /\ memory_sound s' /\
    length (objs (heap s')) = length (objs (heap s)) /\
    (forall o, exists_m s' o <-> exists_m s o) /\
    m_dim s' o1 = m_dim s o2 /\ m_dim s' o2 = m_dim s o1 /\
    (forall k, lincell s' o1 k = lincell s o2 k /\ lincell s' o2 k = lincell s o1 k) /\
    kept_except [o1; o2] s s'.
Proof.
  intros Hs [v1 Hv1] [v2 Hv2] Hl. unfold h_move_assign.
  rewrite (bindN_ok _ _ s v1 s).
  2:{ erewrite lift_ok; [|apply get_obj_ok; eauto]. now rewrite mstate_eta. }
  rewrite (bindN_ok _ _ s v2 s).
  2:{ erewrite lift_ok; [|apply get_obj_ok; eauto]. now rewrite mstate_eta. }
  rewrite (bindN_ok _ _ s _ s) by (apply get_dim_ok; [auto|exists v1; auto]).
  rewrite (bindN_ok _ _ s _ s) by (apply get_dim_ok; [auto|exists v2; auto]).
  destruct Hs as [Hs [Hlen Hz]].
  destruct (move_assign_good (heap s) o1 o2 v1 v2 Hs Hv1 Hv2) as [h [E [Hs' Hl']]].
  unfold move_assign in E. rewrite (bindM_ok _ _ _ v1 (heap s)) in E by (apply get_obj_ok; auto).
  rewrite (bindM_ok _ _ _ v2 (heap s)) in E by (apply get_obj_ok; auto).
  assert (L1 : o1 < length (objs (heap s))) by (apply nth_error_Some; congruence).
  assert (L2 : o2 < length (objs (heap s))) by (apply nth_error_Some; congruence).
  destruct (set_obj_ok (heap s) o1 (Some (VObj (okind v1) (oaddr v2) (olen v2)))) as [h1 [E1 [Hb1 [_ [Hl1 Ho1]]]]]; auto.
  rewrite (bindM_ok _ _ _ _ _ E1) in E.
  rewrite (bindN_ok _ _ s tt (MSt h1 (dims s))) by (apply lift_ok; auto).
  rewrite (bindN_ok _ _ (MSt h1 (dims s)) tt (MSt h (dims s))) by (unfold lift; simpl; now rewrite E).
  destruct (set_obj_ok h1 o2 (Some (VObj (okind v2) (oaddr v1) (olen v1)))) as [h2 [E2 [Hb2 [_ [Hl2 Ho2]]]]]; [lia|].
  rewrite E2 in E. injection E as ->.
  destruct (set_dim_ok (MSt h (dims s)) o1 (drows (m_dim s o2)) (dcols (m_dim s o2))) as [ds1 [D1 [N1 M1]]]; [simpl; lia|].
  rewrite (bindN_ok _ _ _ _ _ D1).
  destruct (set_dim_ok (MSt h ds1) o2 (drows (m_dim s o1)) (dcols (m_dim s o1))) as [ds2 [D2 [N2 M2]]]; [simpl in *; lia|].
  simpl in D2. cbn [heap]. rewrite D2. eexists. split; [reflexivity|].
  set (s2 := MSt h ds2). change (m_dim (MSt h (dims s))) with (m_dim s) in M1.
  assert (Hd := m_dim_two s s2 ds1 ds2 o1 o2 _ _ _ _ M1 M2 eq_refl).
  assert (Ho : forall o, nth_error (objs h) o =
     if Nat.eq_dec o o2 then Some (Some (VObj (okind v2) (oaddr v1) (olen v1)))
     else if Nat.eq_dec o o1 then Some (Some (VObj (okind v1) (oaddr v2) (olen v2)))
     else nth_error (objs (heap s)) o).
  { intros o. rewrite Ho2, Ho1. reflexivity. }
  assert (Hc : forall b k, cellat h b k = cellat (heap s) b k).
  { intros b k. apply cellat_get_block. rewrite (blocks_get_block _ _ _ Hb2). apply blocks_get_block; auto. }
  assert (Hd1 : m_dim s2 o1 = m_dim s o2).
  { rewrite Hd. destruct (Nat.eq_dec o1 o2) as [->|]; [destruct (m_dim s o2); reflexivity|].
    destruct (Nat.eq_dec o1 o1); [|congruence]. rewrite Hl. destruct (m_dim s o2); reflexivity. }
  assert (Hd2 : m_dim s2 o2 = m_dim s o1).
  { rewrite Hd. destruct (Nat.eq_dec o2 o2); [|congruence]. rewrite <- Hl. destruct (m_dim s o1); reflexivity. }
  split; [|split; [|split; [|split; [|split; [|split]]]]]; auto.
  - split; auto. split; [simpl in *; lia|]. intros o v Hv. simpl in Hv. rewrite Ho in Hv.
    destruct (Nat.eq_dec o o2) as [->|]; [|destruct (Nat.eq_dec o o1) as [->|]].
    + injection Hv as <-. rewrite Hd2. simpl. auto.
    + injection Hv as <-. rewrite Hd1. simpl. auto.
    + rewrite Hd. destruct (Nat.eq_dec o o2); [congruence|]. destruct (Nat.eq_dec o o1); [congruence|]. auto.
  - intros o. unfold exists_m. simpl. rewrite Ho. destruct (Nat.eq_dec o o2) as [->|]; [|destruct (Nat.eq_dec o o1) as [->|]].
    + split; intros; eauto.
    + split; intros; eauto.
    + tauto.
  - intros k. unfold lincell. simpl. rewrite !Ho, Hv1, Hv2. split.
    + destruct (Nat.eq_dec o1 o2) as [->|].
      * rewrite Hv1 in Hv2. injection Hv2 as <-. simpl. destruct (oaddr v1) as [[b off]|]; auto.
      * destruct (Nat.eq_dec o1 o1); [|congruence]. simpl. destruct (oaddr v2) as [[b off]|]; auto.
    + destruct (Nat.eq_dec o2 o2); [|congruence]. simpl. destruct (oaddr v1) as [[b off]|]; auto.
  - intros o [v Hv] Hn. assert (o <> o1 /\ o <> o2) as [Q1 Q2] by (split; intros ->; apply Hn; simpl; auto).
    assert (Hoo : nth_error (objs h) o = nth_error (objs (heap s)) o).
    { rewrite Ho. destruct (Nat.eq_dec o o2); [congruence|]. destruct (Nat.eq_dec o o1); congruence. }
    split; [exists v; simpl; congruence|]. apply same_of_cells.
    + rewrite Hd. destruct (Nat.eq_dec o o2); [congruence|]. destruct (Nat.eq_dec o o1); congruence.
    + intros k _. unfold lincell. simpl. rewrite Hoo, Hv. destruct (oaddr v) as [[b off]|]; auto.
Qed.

(** ** Constructors *)
Lemma ctor_goodN (s : mstate) l (body : nat -> N unit) : memory_sound s ->
  (let o := length (objs (heap s)) in sgood o (fresh_state l s) (body o (fresh_state l s))) ->
  goodN s (voidN (h_ctor l body) s).
Proof.
  intros Hs Hb. assert (K := h_ctor_good s l body Hs Hb). unfold voidN, bindN.
  destruct (h_ctor l body s) as [o s1|e s1|u]; simpl; auto.
  - tauto.
  - destruct (only_sched_facts s s1 K Hs) as [A [B _]]. auto.
Qed.

Lemma elements_good (s : mstate) ex o r c l : memory_sound s -> exists_m s o ->
  ((0 <= r)%Z -> (0 <= c)%Z -> Z.of_nat (length l) = (r * c)%Z) ->
  sgood o s (bindN (h_resize_fast true o r c) (fun _ => h_assign_list ex o l) s).
Proof.
  intros Hs He Hl. destruct He as [v Hv].
  destruct (Z.ltb_spec r 0); [|destruct (Z.ltb_spec c 0)].
  - destruct (h_resize_neg s o r c) as [_ E]; auto. rewrite (bindN_throw _ _ _ _ _ E). apply only_sched_refl.
  - destruct (h_resize_neg s o r c) as [_ E]; auto. rewrite (bindN_throw _ _ _ _ _ E). apply only_sched_refl.
  - specialize (Hl H H0). rewrite <- (Z2Nat.id r), <- (Z2Nat.id c) in Hl |- * by auto.
    set (rn := Z.to_nat r) in *. set (cn := Z.to_nat c) in *.
    destruct (h_resize_fast_spec s o rn cn v Hs Hv) as [[s' [E [H1 _]]]|[s1 [keep [E R]]]].
    + rewrite (bindN_throw _ _ _ _ _ E). auto.
    + rewrite (bindN_ok _ _ _ _ _ E).
      destruct (h_assign_list_good s1 ex o l) as [G1 G2].
      * apply (mr_sound _ _ _ _ _ _ R).
      * apply (mr_exists _ _ _ _ _ _ R). exists v; auto.
      * eapply sgood_seq; [eapply mresized_sgood; eauto|auto|]. apply G2.
        rewrite (mr_dim _ _ _ _ _ _ R). cbn [drows dcols]. apply Nat2Z.inj. rewrite Nat2Z.inj_mul. exact Hl.
Qed.

Lemma move_ctor_good (s : mstate) o : memory_sound s -> exists_m s o ->
  goodN s (voidN (h_ctor_move (dlay (m_dim s o)) o) s).
Proof.
  intros Hs He. set (l := dlay (m_dim s o)).
  destruct (fresh_facts l s Hs) as [A [B [C [D E]]]]. cbv zeta in *.
  set (t := length (objs (heap s))) in *. destruct (E o He) as [E1 [E2 E3]].
  destruct (h_move_assign_run (fresh_state l s) t o) as [s' [Er [S1 _]]]; auto.
  - apply D; auto. lia.
  - rewrite C, E2. reflexivity.
  - assert (Ec : h_ctor l (fun o' => h_move_assign o' o) s = NOk t s').
    { unfold h_ctor. change (h_default l s) with (NOk t (fresh_state l s)). cbv iota beta. now rewrite Er. }
    unfold voidN, h_ctor_move. rewrite (bindN_ok _ _ _ _ _ Ec). exact S1.
Qed.

(** ** Products *)
Context {O : Ops T}.

Lemma h_inner_safe (s sk : mstate) t o1 o2 i j : memory_sound s -> exists_m s o1 -> exists_m s o2 ->
  i < drows (m_dim s o1) -> j < dcols (m_dim s o2) -> dcols (m_dim s o1) = drows (m_dim s o2) ->
  stores t s sk ->
  forall n k acc, k + n <= dcols (m_dim s o1) ->
  (exists x, h_inner o1 o2 i j n k acc sk = NOk x sk) \/ h_inner o1 o2 i j n k acc sk = NUB UBIndet.
Proof.
  intros Hs H1 H2 Hi Hj Hin St. induction n as [|n IH]; intros k acc Hk; simpl.
  - left; eexists; reflexivity.
  - destruct (get_step s sk t o1 i k) as [[x E]|E]; auto; [lia| |right; apply bindN_ub; auto].
    rewrite (bindN_ok _ _ _ _ _ E).
    destruct (get_step s sk t o2 k j) as [[y E2]|E2]; auto; [lia| |right; apply bindN_ub; auto].
    rewrite (bindN_ok _ _ _ _ _ E2). apply IH. lia.
Qed.

Lemma h_product_good (s : mstate) l o1 o2 : memory_sound s -> exists_m s o1 -> exists_m s o2 ->
  dcols (m_dim s o1) <> 0 -> goodN s (voidN (h_product true l o1 o2) s).
Proof.
  intros Hs H1 H2 Hc. unfold voidN. set (d1 := m_dim s o1) in *. set (d2 := m_dim s o2) in *.
  assert (G : match h_product true l o1 o2 s with
              | NOk _ s' => memory_sound s'
              | NThrow _ s' => memory_sound s' /\ all_kept s s'
              | NUB u => u = UBIndet end).
  2:{ unfold bindN at 1. fold (h_product true l o1 o2 s). destruct (h_product true l o1 o2 s); auto. }
  unfold h_product.
  rewrite (bindN_ok _ _ s _ s) by (apply get_dim_ok; auto).
  rewrite (bindN_ok _ _ s _ s) by (apply get_dim_ok; auto). fold d1 d2.
  unfold requireN. destruct (Nat.eqb_spec (dcols d1) (drows d2)) as [Ei|Ei].
  2:{ simpl. split; auto. apply kept_refl. }
  rewrite (bindN_ok _ _ s tt s) by reflexivity.
  rewrite (bindN_ok _ _ s (length (objs (heap s))) (fresh_state l s)) by reflexivity.
  destruct (fresh_facts l s Hs) as [A [B [C [D E]]]]. cbv zeta in *.
  set (t := length (objs (heap s))) in *. set (s0 := fresh_state l s) in *.
  destruct B as [v Hv].
  destruct (h_resize_spec s0 t (drows d1) (dcols d2) v A Hv) as [[s' [Er [Os _]]]|[s1 [Er R]]].
  - rewrite (bindN_throw _ _ _ _ _ Er). destruct (only_sched_facts s0 s' Os A) as [S1 [K1 P1]].
    destruct (h_dtor_good s' t S1) as [s2 [-> [S2 [P2 [K2 _]]]]]; [apply P1; exists v; auto|].
    split; auto. intros o' He _. destruct (E o' He) as [F1 [F2 F3]].
    assert (X0 : exists_m s0 o') by (apply D; auto; lia).
    destruct (K1 o' X0) as [Y1 Z1]; auto. destruct (K2 o' Y1) as [Y2 Z2]; [simpl; intuition lia|].
    split; auto. eapply same_matrix_trans; [eauto|]. eapply same_matrix_trans; eauto.
    apply same_of_cells; auto.
  - rewrite (bindN_ok _ _ _ _ _ Er).
    destruct (E o1 H1) as [L1 [Q1 _]]. destruct (E o2 H2) as [L2 [Q2 _]].
    assert (X1 : exists_m s1 o1) by (apply (mr_exists _ _ _ _ _ _ R), D; auto; lia).
    assert (X2 : exists_m s1 o2) by (apply (mr_exists _ _ _ _ _ _ R), D; auto; lia).
    assert (Xt : exists_m s1 t) by (apply (mr_exists _ _ _ _ _ _ R); exists v; auto).
    assert (M1 : m_dim s1 o1 = d1) by (rewrite (mr_dim_other _ _ _ _ _ _ R) by lia; auto).
    assert (M2 : m_dim s1 o2 = d2) by (rewrite (mr_dim_other _ _ _ _ _ _ R) by lia; auto).
    assert (S1 := mr_sound _ _ _ _ _ _ R).
    assert (Mt := mr_dim _ _ _ _ _ _ R).
    match goal with |- context [forN ?n 0 ?f s1] =>
      assert (G : (exists s', forN n 0 f s1 = NOk tt s' /\ stores t s1 s') \/ forN n 0 f s1 = NUB UBIndet) end.
    { apply (forN_safe (stores t s1)); [apply stores_refl|]. intros i si Hi Si.
      apply (forN_safe (stores t s1)); auto. intros j sj Hj Sj.
      destruct (get_step s1 sj t o1 i 0) as [[x Ex]|Ex]; auto; try (rewrite M1; lia); [|right; apply bindN_ub; auto].
      rewrite (bindN_ok _ _ _ _ _ Ex).
      destruct (get_step s1 sj t o2 0 j) as [[y Ey]|Ey]; auto; try (rewrite M2; lia); [|right; apply bindN_ub; auto].
      rewrite (bindN_ok _ _ _ _ _ Ey).
      destruct (h_inner_safe s1 sj t o1 o2 i j S1 X1 X2) with (n := dcols d1 - 1) (k := 1) (acc := mul x y) as [[z Ez]|Ez];
        auto; try (rewrite ?M1, ?M2; lia); [|right; apply bindN_ub; auto].
      rewrite (bindN_ok _ _ _ _ _ Ez). apply put_step; auto; rewrite Mt; simpl; lia. }
    destruct G as [[s' [-> Hst]]| ->]; [|reflexivity]. destruct Hst as [St _]. eapply steady_sound; eauto.
Qed.

(** ** One call, and histories *)
Lemma m_alive_iff (s : mstate) o : m_alive s o = true <-> exists_m s o.
Proof. apply alive_iff. Qed.
Lemma operands_iff (s : mstate) e : forallb (m_alive s) (h_objs e) = true -> operands s e.
Proof. rewrite forallb_forall. intros H o Hin. apply m_alive_iff; auto. Qed.

Lemma m_step_good (s : mstate) p : memory_sound s -> proper p -> goodN s (m_step true p s).
Proof.
  intros Hs Hp.
  assert (Hskip : goodN s (retN tt s)) by exact Hs.
  destruct p; cbn [m_step].
  - (* default *) unfold voidN. rewrite (bindN_ok _ _ s (length (objs (heap s))) (fresh_state l s)) by reflexivity.
    exact (fresh_sound l s Hs).
  - (* size *) apply ctor_goodN; auto. cbv zeta. apply h_resize_good; auto using fresh_sound, fresh_exists.
  - (* elements *) apply ctor_goodN; auto. cbv zeta. apply elements_good; auto using fresh_sound, fresh_exists.
  - (* array *) apply ctor_goodN; auto. cbv zeta. apply elements_good; auto using fresh_sound, fresh_exists.
  - (* expr *) destruct (forallb (m_alive s) (h_objs e)) eqn:Ha; auto. apply operands_iff in Ha.
    destruct (fresh_facts l s Hs) as [A [B [C [D E]]]]. cbv zeta in *.
    apply ctor_goodN; auto. cbv zeta. apply h_assign_good; auto.
    + intros o Hin. destruct (E o (Ha o Hin)) as [F _]. apply D; auto. lia.
    + intros Hu. assert (Hin : In (length (objs (heap s))) (h_objs e)).
      { clear - Hu. induction e; simpl in *; auto; try tauto. apply in_or_app. tauto. }
      destruct (E _ (Ha _ Hin)) as [F _]. lia.
  - (* move ctor *) destruct (m_alive s o) eqn:Ha; auto. apply m_alive_iff in Ha. apply move_ctor_good; auto.
  - (* product *) destruct (m_alive s o1) eqn:Ha; auto. destruct (m_alive s o2) eqn:Hb; auto.
    destruct (Nat.eqb_spec (dcols (m_dim s o1)) 0); auto. apply m_alive_iff in Ha. apply m_alive_iff in Hb. simpl.
    apply h_product_good; auto.
  - (* assign *) destruct (m_alive s o) eqn:Ha; auto. apply m_alive_iff in Ha.
    destruct (forallb (m_alive s) (h_objs e)) eqn:Hb; auto. apply operands_iff in Hb. simpl.
    eapply sgood_goodN; eauto. apply h_assign_good; auto.
  - (* compound *) destruct (m_alive s o) eqn:Ha; auto. apply m_alive_iff in Ha.
    destruct (forallb (m_alive s) (h_objs e)) eqn:Hb; auto. apply operands_iff in Hb. simpl.
    eapply sgood_goodN; eauto. apply h_compound_good; auto.
  - (* scale *) destruct (m_alive s o) eqn:Ha; auto. apply m_alive_iff in Ha.
    eapply sgood_goodN; eauto. apply h_scale_good; auto.
  - (* generate *) destruct (m_alive s o) eqn:Ha; auto. apply m_alive_iff in Ha.
    eapply sgood_goodN; eauto. apply h_generate_good; auto.
  - (* list *) destruct (m_alive s o) eqn:Ha; auto. apply m_alive_iff in Ha.
    eapply sgood_goodN; eauto. apply h_assign_list_good; auto.
  - (* transpose *) destruct (m_alive s o) eqn:Ha; auto. apply m_alive_iff in Ha. apply h_transpose_good; auto.
  - (* move assign *) destruct (m_alive s o1) eqn:Ha; auto. destruct (m_alive s o2) eqn:Hb; auto.
    apply m_alive_iff in Ha. apply m_alive_iff in Hb.
    destruct (layout_eqb (dlay (m_dim s o1)) (dlay (m_dim s o2))) eqn:El; auto.
    assert (El' : dlay (m_dim s o1) = dlay (m_dim s o2))
      by (destruct (dlay (m_dim s o1)), (dlay (m_dim s o2)); auto; discriminate).
    destruct (h_move_assign_run s o1 o2 Hs Ha Hb El') as [s' [Er [S1 _]]]. simpl. rewrite Er. exact S1.
  - (* resize *) destruct (m_alive s o) eqn:Ha; auto. apply m_alive_iff in Ha.
    eapply sgood_goodN; eauto. apply h_resize_good; auto.
  - (* resize_fast *) destruct (m_alive s o) eqn:Ha; auto. apply m_alive_iff in Ha.
    eapply sgood_goodN; eauto. apply h_resize_good; auto.
  - (* put *) destruct (m_alive s o) eqn:Ha; auto. apply m_alive_iff in Ha.
    destruct (Nat.ltb_spec i (drows (m_dim s o))); auto. destruct (Nat.ltb_spec j (dcols (m_dim s o))); auto. simpl.
    destruct (stores_put o s s i j x Hs (stores_refl o s)) as [s' [-> [H1 _]]]; [repeat split; auto|].
    apply (sgood_goodN o); auto. apply stores_sgood; auto.
  - (* destroy *) destruct (m_alive s o) eqn:Ha; auto. apply m_alive_iff in Ha.
    destruct (h_dtor_good s o Hs Ha) as [s' [-> [S1 _]]]. exact S1.
Qed.

Lemma m_run_good (h : list (mop T)) : forall s, memory_sound s -> Forall proper h ->
  match m_run true h s with
  | NOk _ s' => memory_sound s'
  | NThrow _ _ => False
  | NUB u => u = UBIndet
  end.
Proof.
  induction h as [|p h IH]; intros s Hs HF; simpl; auto. inversion HF; subst.
  assert (G := m_step_good s p Hs H1). destruct (m_step true p s) as [[] s'|e s'|u].
  - apply IH; auto.
  - destruct G as [G _]. apply IH; auto.
  - exact G.
Qed.

Lemma m_init_sound sch : memory_sound (m_init sch : mstate).
Proof.
  split; [apply sound_init|]. split; auto. intros [|o] v; discriminate.
Qed.

Lemma m_destroy_all (n : nat) : forall k (s : mstate), memory_sound s ->
  exists s', m_run true (map MDestroy (seq k n)) s = NOk tt s' /\ memory_sound s' /\
    length (objs (heap s')) = length (objs (heap s)) /\
    forall o, exists_m s' o <-> (exists_m s o /\ ~ (k <= o < k + n)).
Proof.
  induction n as [|n IH]; intros k s Hs.
  - exists s. split; auto. split; auto. split; auto. intros o. intuition lia.
  - cbn [seq map m_run m_step]. destruct (m_alive s k) eqn:Ha.
    + apply m_alive_iff in Ha. destruct (h_dtor_good s k Hs Ha) as [s1 [-> [S1 [P1 [_ L1]]]]].
      destruct (IH (S k) s1 S1) as [s2 [E [S2 [L2 P2]]]]. exists s2. split; auto. split; auto. split; [congruence|].
      intros o. rewrite P2, P1. intuition lia.
    + unfold retN. destruct (IH (S k) s Hs) as [s2 [E [S2 [L2 P2]]]]. exists s2. split; auto. split; auto. split; auto.
      intros o. rewrite P2. split; [|intuition lia].
      intros [Hx Hn]. split; auto. intros Hk. destruct (Nat.eq_dec o k) as [->|]; [|lia].
      apply m_alive_iff in Hx. congruence.
Qed.

End MHeapSafe.
