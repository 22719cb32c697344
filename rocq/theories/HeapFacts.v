(** Lemmas about the memory model of HeapModel.v. *)
From Coq Require Import List ZArith Bool Arith Lia.
From Verif Require Import Base BaseFacts HeapModel HeapSpec.
Import ListNotations.

Section HeapFacts.
Context {T : Type}.
Notation state := (state T).
Notation vexpr := (vexpr T).
Notation M := (M T).

Definition bsize (s : state) (b : nat) : option nat :=
  option_map (@length _) (get_block s b).

(** Same objects, same blocks with the same liveness and length. *)
Definition same_shape (s s' : state) : Prop :=
  objs s' = objs s /\ sched s' = sched s /\ length (blocks s') = length (blocks s) /\
  forall b, bsize s' b = bsize s b.

Lemma same_shape_refl (s : state) : same_shape s s.
Proof. unfold same_shape; auto. Qed.
Lemma same_shape_trans s1 s2 s3 : same_shape s1 s2 -> same_shape s2 s3 -> same_shape s1 s3.
Proof.
  intros [A [B [C D]]] [A' [B' [C' D']]]. unfold same_shape.
  repeat split; try congruence; try (intros b; rewrite D'; auto).
Qed.

Lemma cellat_bsize (s : state) b i : (exists c, cellat s b i = Some c) <->
  exists n, bsize s b = Some n /\ i < n.
Proof.
  unfold cellat, bsize. destruct (get_block s b) as [cs|]; simpl.
  - split.
    + intros [c H]. exists (length cs); split; auto. apply nth_error_Some; congruence.
    + intros [n [H1 H2]]. injection H1 as <-.
      destruct (nth_error cs i) eqn:E; eauto. apply nth_error_None in E; lia.
  - split; intros [x H]; [discriminate|]. destruct H; discriminate.
Qed.

Lemma rd_cell_ok (s : state) b i c : cellat s b i = Some c -> rd_cell b i s = ROk c s.
Proof.
  unfold cellat, rd_cell. destruct (get_block s b); [|discriminate].
  intros ->. reflexivity.
Qed.
Lemma rd_cell_inv (s : state) b i : (exists c, cellat s b i = Some c /\ rd_cell b i s = ROk c s) \/
  (cellat s b i = None /\ rd_cell b i s = RUB UBMem).
Proof.
  unfold cellat, rd_cell. destruct (get_block s b) as [cs|]; auto.
  destruct (nth_error cs i); eauto.
Qed.

Lemma get_block_bound (s : state) b cs : get_block s b = Some cs -> b < length (blocks s).
Proof.
  unfold get_block. destruct (nth_error (blocks s) b) eqn:E; [|discriminate].
  intros _. apply nth_error_Some; congruence.
Qed.

Lemma set_block_ok (s : state) b bk : b < length (blocks s) -> exists s',
  set_block s b bk = Some s' /\ objs s' = objs s /\ sched s' = sched s /\
  length (blocks s') = length (blocks s) /\
  forall b', get_block s' b' =
    if Nat.eq_dec b' b then match bk with Live cs => Some cs | Freed => None end
    else get_block s b'.
Proof.
  intros H. unfold set_block.
  destruct (list_put_Some (blocks s) b bk H) as [bs E]. rewrite E.
  eexists; split; [reflexivity|]. simpl. repeat split.
  - eapply list_put_length; eauto.
  - intros b'. unfold get_block. simpl. rewrite (nth_error_list_put _ _ _ _ b' E).
    destruct (Nat.eq_dec b' b); auto.
Qed.

Lemma wr_cell_ok (s : state) b i c c0 : cellat s b i = Some c0 -> exists s',
  wr_cell b i c s = ROk tt s' /\ same_shape s s' /\
  forall b' i', cellat s' b' i' =
    if (Nat.eq_dec b' b) then if Nat.eq_dec i' i then Some c else cellat s b' i'
    else cellat s b' i'.
Proof.
  unfold cellat at 1, wr_cell. destruct (get_block s b) as [cs|] eqn:Eb; [|discriminate].
  intros H. assert (Hi : i < length cs) by (apply nth_error_Some; congruence).
  destruct (list_put_Some cs i c Hi) as [cs' Ec]. rewrite Ec.
  destruct (set_block_ok s b (Live cs') (get_block_bound _ _ _ Eb))
    as [s' [Es [Ho [Hs [Hl Hg]]]]].
  rewrite Es. exists s'. split; [reflexivity|]. split.
  - unfold same_shape. repeat split; auto. intros b'. unfold bsize. rewrite Hg.
    destruct (Nat.eq_dec b' b); subst; auto. rewrite Eb. simpl. f_equal.
    eapply list_put_length; eauto.
  - intros b' i'. unfold cellat. rewrite Hg. destruct (Nat.eq_dec b' b); subst; auto.
    rewrite Eb. rewrite (nth_error_list_put _ _ _ _ i' Ec). reflexivity.
Qed.

Lemma wr_cell_inv (s : state) b i c :
  (exists s' c0, cellat s b i = Some c0 /\ wr_cell b i c s = ROk tt s' /\ same_shape s s') \/
  (cellat s b i = None /\ wr_cell b i c s = RUB UBMem).
Proof.
  destruct (cellat s b i) as [c0|] eqn:E.
  - left. destruct (wr_cell_ok s b i c c0 E) as [s' [A [B _]]]; eauto.
  - right. split; auto. unfold cellat, wr_cell in *.
    destruct (get_block s b) as [cs|]; auto.
    destruct (list_put cs i c) eqn:Ep; auto.
    apply list_put_bound in Ep. apply nth_error_None in E. lia.
Qed.

Lemma get_obj_ok (s : state) o v : nth_error (objs s) o = Some (Some v) -> get_obj o s = ROk v s.
Proof. unfold get_obj; intros ->; reflexivity. Qed.

Lemma set_obj_ok (s : state) o v : o < length (objs s) -> exists s',
  set_obj o v s = ROk tt s' /\ blocks s' = blocks s /\ sched s' = sched s /\
  length (objs s') = length (objs s) /\
  (forall o', nth_error (objs s') o' = if Nat.eq_dec o' o then Some v else nth_error (objs s) o').
Proof.
  intros H. unfold set_obj. destruct (list_put_Some (objs s) o v H) as [os E]. rewrite E.
  eexists; split; [reflexivity|]; simpl; repeat split.
  - eapply list_put_length; eauto.
  - intros o'. apply (nth_error_list_put _ _ _ _ o' E).
Qed.

Lemma blocks_get_block (s s' : state) b : blocks s' = blocks s -> get_block s' b = get_block s b.
Proof. unfold get_block; intros ->; reflexivity. Qed.

Lemma same_shape_obj (s s' : state) o : same_shape s s' -> nth_error (objs s') o = nth_error (objs s) o.
Proof. intros [H _]; now rewrite H. Qed.

Lemma same_shape_cellat (s s' : state) b i : same_shape s s' ->
  (exists c, cellat s b i = Some c) -> exists c, cellat s' b i = Some c.
Proof.
  intros [_ [_ [_ H]]]. rewrite !cellat_bsize. intros [n Hn]. exists n. now rewrite H.
Qed.

(** ** Reading: expressions never change the state *)

Ltac rstep H :=
  repeat first
  [ progress (cbn [bindM ret ubM] in H)
  | progress (unfold bindM, ret, ubM, obj_get, get_obj, rd, rd_cell in H)
  | discriminate H
  | match type of H with
    | context[match nth_error ?l ?i with _ => _ end] => destruct (nth_error l i) as [?|] eqn:?
    | context[match oaddr ?v with _ => _ end] => destruct (oaddr v) as [[? ?]|] eqn:?
    | context[match get_block ?v ?b with _ => _ end] => destruct (get_block v b) as [?|] eqn:?
    | context[match e_get ?e ?i ?s with _ => _ end] => destruct (e_get e i s) as [? ?|? ?|?] eqn:?
    | context[match ?c with Some _ => _ | None => _ end] => destruct c as [?|] eqn:?
    end ].

Lemma e_get_state (e : vexpr) : forall i s x s', e_get e i s = ROk x s' -> s' = s.
Proof.
  induction e; intros i s x s' H; cbn [e_get] in H.
  - rstep H. inversion H; auto.
  - rstep H. inversion H; auto.
  - rstep H. inversion H; subst; eauto.
  - rstep H. inversion H; subst.
    repeat match goal with
    | IH : forall i s x s', e_get ?e i s = _ -> _ , E : e_get ?e _ _ = ROk _ _ |- _ =>
      apply IH in E; subst end; auto.
  - rstep H. inversion H; subst; eauto.
  - rstep H. inversion H; subst.
    repeat match goal with
    | IH : forall i s x s', e_get ?e i s = _ -> _ , E : e_get ?e _ _ = ROk _ _ |- _ =>
      apply IH in E; subst end; auto.
  - eauto.
Qed.

Lemma e_get_nothrow (e : vexpr) : forall i s ex s', e_get e i s <> RThrow ex s'.
Proof.
  induction e; intros i s ex s' H; cbn [e_get] in H; rstep H;
   try (match goal with
    | IH : forall i s x s', e_get ?e i s <> _, E : e_get ?e _ _ = RThrow _ _ |- _ =>
      exact (IH _ _ _ _ E) end).
Qed.

Fixpoint all_alive (s : state) (e : vexpr) : Prop :=
  match e with
  | EObj o => exists v, nth_error (objs s) o = Some (Some v)
  | ETmp _ => True
  | EUn _ e1 | EScal _ e1 _ | ESub e1 _ => all_alive s e1
  | EBin _ e1 e2 | ECross _ _ e1 e2 => all_alive s e1 /\ all_alive s e2
  end.

(** The constructor checks of all nodes hold. *)
Fixpoint well_sized (s : state) (e : vexpr) : Prop :=
  match e with
  | EObj _ | ETmp _ => True
  | EUn _ e1 | EScal _ e1 _ | ESub e1 _ => well_sized s e1
  | EBin _ e1 e2 => well_sized s e1 /\ well_sized s e2 /\ esz s e1 = esz s e2
  | ECross _ _ e1 e2 => well_sized s e1 /\ well_sized s e2 /\ esz s e1 = 3%Z /\ esz s e2 = 3%Z
  end.

Lemma all_alive_iff (s : state) e : all_alive s e <-> forall o, In o (e_objs e) ->
  exists v, nth_error (objs s) o = Some (Some v).
Proof.
  induction e; simpl; try tauto.
  - split; [intros H o' [<-|[]]; auto|intros H; apply H; auto].
  - rewrite IHe1, IHe2. split.
    + intros [A B] o Hin. apply in_app_or in Hin as []; auto.
    + intros H; split; intros; apply H, in_or_app; auto.
  - rewrite IHe1, IHe2. split.
    + intros [A B] o Hin. apply in_app_or in Hin as []; auto.
    + intros H; split; intros; apply H, in_or_app; auto.
Qed.

Lemma alive_iff (s : state) o : alive s o = true <-> exists v, nth_error (objs s) o = Some (Some v).
Proof.
  unfold alive. destruct (nth_error (objs s) o) as [[v|]|]; split; intros H; eauto; try discriminate;
   destruct H; discriminate.
Qed.

Lemma forallb_alive (s : state) e : forallb (alive s) (e_objs e) = true <-> all_alive s e.
Proof.
  rewrite all_alive_iff, forallb_forall. split; intros H o Ho; apply alive_iff || apply alive_iff, H; auto.
Qed.

Lemma e_size_ok (s : state) e : all_alive s e -> e_size e s = ROk (esz s e) s.
Proof.
  induction e; simpl; intros H; auto.
  - destruct H as [v Hv]. unfold bindM. rewrite (get_obj_ok _ _ _ Hv).
    unfold size_of. now rewrite Hv.
  - apply IHe1; tauto.
  - unfold bindM. rewrite IHe; auto.
Qed.

Lemma e_build_spec (s : state) e : all_alive s e ->
  (well_sized s e /\ e_build e s = ROk tt s) \/
  (~ well_sized s e /\ (e_build e s = RThrow EIncompatibleVectorSize s \/ e_build e s = RThrow EVectorSize s)).
Proof.
  induction e; simpl; intros Ha; auto.
  - destruct Ha as [v Hv]. unfold bindM. rewrite (get_obj_ok _ _ _ Hv). auto.
  - destruct Ha as [H1 H2]. unfold bindM.
    destruct (IHe1 H1) as [[A ->]|[A [B|B]]]; [|rewrite B; right; split; [tauto|auto]..].
    destruct (IHe2 H2) as [[A2 ->]|[A2 [B|B]]]; [|rewrite B; right; split; [tauto|auto]..].
    rewrite !e_size_ok by auto.
    unfold requireM. destruct (Z.eqb_spec (esz s e1) (esz s e2)); [left|right]; auto.
    split; [tauto|]. auto.
  - destruct Ha as [H1 H2]. unfold bindM.
    destruct (IHe1 H1) as [[A ->]|[A [B|B]]]; [|rewrite B; right; split; [tauto|auto]..].
    destruct (IHe2 H2) as [[A2 ->]|[A2 [B|B]]]; [|rewrite B; right; split; [tauto|auto]..].
    rewrite !e_size_ok by auto. unfold requireM.
    destruct (Z.eqb_spec (esz s e1) 3); [|right; split; [tauto|auto]].
    cbn [ret]. rewrite e_size_ok by auto.
    destruct (Z.eqb_spec (esz s e2) 3); [left|right]; auto. split; [tauto|auto].
Qed.

Definition built (s : state) (e : vexpr) : Prop := all_alive s e /\ well_sized s e.

(** [fits s e i]: every element read by get(i) exists. *)
Fixpoint fits (s : state) (e : vexpr) (i : nat) : Prop :=
  match e with
  | EObj o => exists v b off, nth_error (objs s) o = Some (Some v) /\ oaddr v = Some (b, off) /\
                exists c, cellat s b (off + i) = Some c
  | ETmp l => i < length l
  | EUn _ e1 | EScal _ e1 _ => fits s e1 i
  | EBin _ e1 e2 => fits s e1 i /\ fits s e2 i
  | ECross _ _ e1 e2 => (forall j, j < 3 -> fits s e1 j) /\ (forall j, j < 3 -> fits s e2 j)
  | ESub e1 skip => fits s e1 (if i <? skip then i else i + 1)
  end.

Lemma fits_shape (s s' : state) e : same_shape s s' -> forall i, fits s e i -> fits s' e i.
Proof.
  intros Hs. induction e; simpl; intros i H; auto.
  - destruct H as [v [b [off [A [B C]]]]]. exists v, b, off.
    rewrite (same_shape_obj _ _ _ Hs). split; auto. split; auto.
    eapply same_shape_cellat; eauto.
  - destruct H; auto.
  - destruct H; auto.
Qed.

Lemma e_get_safe e : forall s i, fits s e i ->
  (exists x, e_get e i s = ROk x s) \/ e_get e i s = RUB UBIndet.
Proof.
  induction e; cbn [e_get fits]; intros s i H.
  - destruct H as [v [b [off [A [B [c C]]]]]]. unfold obj_get, bindM.
    rewrite (get_obj_ok _ _ _ A), B. unfold rd, bindM. rewrite (rd_cell_ok _ _ _ _ C).
    destruct c; unfold ret, ubM; eauto.
  - destruct (nth_error l i) eqn:E; [unfold ret; eauto|]. apply nth_error_None in E; lia.
  - unfold bindM, ret. destruct (IHe s i H) as [[x ->]| ->]; eauto.
  - unfold bindM, ret. destruct H as [H1 H2].
    destruct (IHe1 s i H1) as [[x ->]| ->]; eauto.
    destruct (IHe2 s i H2) as [[y ->]| ->]; eauto.
  - unfold bindM, ret. destruct (IHe s i H) as [[x ->]| ->]; eauto.
  - unfold bindM, ret. destruct H as [H1 H2].
    assert (M1 : (i + 1) mod 3 < 3) by (apply Nat.mod_upper_bound; lia).
    assert (M2 : (i + 2) mod 3 < 3) by (apply Nat.mod_upper_bound; lia).
    set (m1 := (i + 1) mod 3) in *. set (m2 := (i + 2) mod 3) in *.
    destruct (IHe1 s _ (H1 _ M1)) as [[x E1]| E1]; rewrite E1; eauto.
    destruct (IHe2 s _ (H2 _ M2)) as [[y E2]| E2]; rewrite E2; eauto.
    destruct (IHe1 s _ (H1 _ M2)) as [[z E3]| E3]; rewrite E3; eauto.
    destruct (IHe2 s _ (H2 _ M1)) as [[w E4]| E4]; rewrite E4; eauto.
  - auto.
Qed.

(** ** Local well-formedness of an object: its window is inside a live block. *)
Definition obj_ok (s : state) (o : nat) : Prop :=
  exists v, nth_error (objs s) o = Some (Some v) /\
  match oaddr v with
  | None => olen v = 0
  | Some (b, off) => exists n, bsize s b = Some n /\ off + olen v <= n
  end.

Lemma obj_ok_shape (s s' : state) o : same_shape s s' -> obj_ok s o -> obj_ok s' o.
Proof.
  intros Hs [v [A B]]. exists v. rewrite (same_shape_obj _ _ _ Hs). split; auto.
  destruct (oaddr v) as [[b off]|]; auto. destruct Hs as [_ [_ [_ H]]]. now rewrite H.
Qed.

Lemma size_of_eq (s : state) o v : nth_error (objs s) o = Some (Some v) -> size_of s o = olen v.
Proof. unfold size_of; intros ->; reflexivity. Qed.

Lemma obj_ok_cell (s : state) o v i : obj_ok s o -> nth_error (objs s) o = Some (Some v) -> i < olen v ->
  exists b off c, oaddr v = Some (b, off) /\ cellat s b (off + i) = Some c.
Proof.
  intros [v' [A B]] Hv Hi. rewrite A in Hv; injection Hv as ->.
  destruct (oaddr v) as [[b off]|]; [|lia].
  destruct B as [n [B1 B2]].
  destruct (proj2 (cellat_bsize s b (off + i))) as [c Hc]; [exists n; split; auto; lia|].
  eauto 6.
Qed.

(** If every leaf is well formed, every index below the size fits. *)
Lemma fits_of_size (s : state) e : built s e -> (forall o, In o (e_objs e) -> obj_ok s o) ->
  forall i, (Z.of_nat i < esz s e)%Z -> fits s e i.
Proof.
  induction e; intros [Ha Hw] Hok i Hi; simpl in *.
  - destruct (Hok o) as [v [A B]]; auto.
    rewrite (size_of_eq _ _ _ A) in Hi.
    destruct (obj_ok_cell s o v i) as [b [off [c [E1 E2]]]]; auto; [lia|].
    exists v, b, off. eauto.
  - lia.
  - apply IHe; auto; split; auto.
  - destruct Ha, Hw as [W1 [W2 W3]]. split.
    + apply IHe1; auto; [split; auto|]. intros; apply Hok, in_or_app; auto.
    + apply IHe2; auto; [split; auto| |lia]. intros; apply Hok, in_or_app; auto.
  - apply IHe; auto; split; auto.
  - destruct Ha, Hw as [W1 [W2 [W3 W4]]]. split; intros j Hj.
    + apply IHe1; auto; [split; auto| |lia]. intros; apply Hok, in_or_app; auto.
    + apply IHe2; auto; [split; auto| |lia]. intros; apply Hok, in_or_app; auto.
  - apply IHe; auto; [split; auto|]. destruct (Nat.ltb_spec i skip); lia.
Qed.

(** ** Loops *)
Lemma forM_inv (I : nat -> state -> Prop) (f : nat -> M unit) n : forall i s,
  I i s ->
  (forall k s, i <= k < i + n -> I k s -> exists s', f k s = ROk tt s' /\ I (S k) s') ->
  exists s', forM n i f s = ROk tt s' /\ I (i + n) s'.
Proof.
  induction n as [|n IH]; intros i s H0 Hs; simpl.
  - exists s. rewrite Nat.add_0_r. unfold ret; auto.
  - unfold bindM. destruct (Hs i s) as [s1 [E H1]]; [lia|auto|]. rewrite E.
    destruct (IH (S i) s1) as [s' [E' H']]; auto.
    + intros; apply Hs; auto; lia.
    + exists s'. rewrite Nat.add_succ_r. auto.
Qed.

(** Loop rule for safety: every iteration succeeds or meets an indeterminate value. *)
Lemma forM_safe (I : state -> Prop) (f : nat -> M unit) n : forall i s,
  I s ->
  (forall k s, i <= k < i + n -> I s ->
     (exists s', f k s = ROk tt s' /\ I s') \/ f k s = RUB UBIndet) ->
  (exists s', forM n i f s = ROk tt s' /\ I s') \/ forM n i f s = RUB UBIndet.
Proof.
  induction n as [|n IH]; intros i s H0 Hs; simpl.
  - left; exists s; unfold ret; auto.
  - unfold bindM. destruct (Hs i s) as [[s1 [E H1]]|E]; [lia|auto| |]; rewrite E; auto.
    apply IH; auto. intros; apply Hs; auto; lia.
Qed.

Lemma alloc_spec (s : state) n :
  (exists r, sched s = false :: r /\ alloc n s = RThrow EBadAlloc (St (blocks s) (objs s) r)) \/
  (exists s', hd true (sched s) = true /\ alloc n s = ROk (length (blocks s)) s' /\
     objs s' = objs s /\ sched s' = tl (sched s) /\
     blocks s' = blocks s ++ [Live (repeat None n)]).
Proof.
  unfold alloc. destruct (sched s) as [|[|] r].
  - right. eexists; repeat split.
  - right. eexists; repeat split.
  - left. eauto.
Qed.

Lemma get_block_app (s s' : state) (bk : block T) b : blocks s' = blocks s ++ [bk] ->
  get_block s' b = if Nat.eq_dec b (length (blocks s))
                   then match bk with Live cs => Some cs | Freed => None end
                   else get_block s b.
Proof.
  intros H. unfold get_block. rewrite H. destruct (Nat.eq_dec b (length (blocks s))) as [->|Hn].
  - rewrite nth_error_app2 by lia. now rewrite Nat.sub_diag.
  - destruct (Nat.lt_ge_cases b (length (blocks s))).
    + now rewrite nth_error_app1 by auto.
    + rewrite nth_error_app2 by lia.
      destruct (nth_error (blocks s) b) eqn:E; [assert (b < length (blocks s)) by (apply nth_error_Some; congruence); lia|].
      destruct (b - length (blocks s)) as [|k] eqn:Ek; [lia|]. simpl. destruct k; reflexivity.
Qed.

Lemma nth_error_repeat {A} (x : A) n i : i < n -> nth_error (repeat x n) i = Some x.
Proof.
  revert i; induction n as [|n IH]; intros i H; [lia|]. destruct i; simpl; auto. apply IH; lia.
Qed.

End HeapFacts.
