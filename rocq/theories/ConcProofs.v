(** Threads: the accesses of one thread seen from that thread and from the others. *)
From Coq Require Import List ZArith Bool Arith Lia.
From Verif Require Import Base BaseFacts HeapModel HeapSpec ConcModel ConcSpec.
Import ListNotations.

Lemma nth_error_ext {A} (l1 : list A) : forall l2, (forall i, nth_error l1 i = nth_error l2 i) -> l1 = l2.
Proof.
  induction l1 as [|a l1 IH]; intros [|b l2] H; auto; try (specialize (H 0); discriminate).
  f_equal; [specialize (H 0); simpl in H; congruence|]. apply IH; intros i; exact (H (S i)).
Qed.
Lemma nth_error_lt {A} (l : list A) i x : nth_error l i = Some x -> i < length l.
Proof. intros H; apply nth_error_Some; congruence. Qed.
Lemma nth_error_snoc {A} (l : list A) x i : nth_error (l ++ [x]) i =
  if Nat.eq_dec i (length l) then Some x else nth_error l i.
Proof.
  destruct (Nat.eq_dec i (length l)) as [->|ne].
  - rewrite nth_error_app2 by lia. now rewrite Nat.sub_diag.
  - destruct (le_lt_dec (length l) i) as [ge|lt].
    + rewrite nth_error_app2 by lia. destruct (i - length l) as [|m] eqn:E; [lia|].
      simpl. destruct m; symmetry; apply nth_error_None; lia.
    + now rewrite nth_error_app1.
Qed.

Section Proofs.
Context {T : Type}.
Notation state := (state T).
Notation cell := (cell T).

(** ** What a thread sees: no addresses *)
Inductive store : Type := SNull | SLive (off : nat) (cs : list cell) | SGone.
Inductive oview : Type := VDead | VLive (k : kind) (n : nat) (st : store).
Record view : Type := VW { vn : list (oview * bool); vh : list (option (list cell)); vs : list bool }.

Definition st_of (s : state) (a : option (nat * nat)) : store :=
  match a with
  | None => SNull
  | Some (b, off) => match nth_error (blocks s) b with Some (Live cs) => SLive off cs | _ => SGone end
  end.
Definition ov_of (s : state) (o : nat) : oview :=
  match nth_error (objs s) o with
  | Some (Some v) => VLive (okind v) (olen v) (st_of s (oaddr v))
  | _ => VDead
  end.
Definition hv_of (s : state) (h : option nat) : option (list cell) :=
  match h with
  | Some b => match nth_error (blocks s) b with Some (Live cs) => Some cs | _ => None end
  | None => None
  end.
Definition view_of (s : state) (e : tenv) : view :=
  VW (map (fun p => (ov_of s (fst p), snd p)) (names e)) (map (hv_of s) (handles e)) (tsched e).

Definition vput (V : view) (i : nat) (x : oview) : option view :=
  match list_put (vn V) i (x, true) with Some l => Some (VW l (vh V) (vs V)) | None => None end.
Definition vhput (V : view) (h : nat) (x : option (list cell)) : option view :=
  match list_put (vh V) h x with Some l => Some (VW (vn V) l (vs V)) | None => None end.

(** the effect of an access on what the thread sees; [None] is undefined *)
Definition vexec (c : cmd T) (V : view) : option (ans c * view) :=
  match c with
  | CInfo i => match nth_error (vn V) i with
               | Some (VLive k n _, _) => Some ((k, n), V)
               | _ => None
               end
  | CCell i k => match nth_error (vn V) i with
                 | Some (VLive _ _ (SLive off cs), _) =>
                     match nth_error cs (off + k) with Some c => Some (c, V) | None => None end
                 | _ => None
                 end
  | CSet i k c => match nth_error (vn V) i with
                  | Some (VLive kd n (SLive off cs), true) =>
                      match list_put cs (off + k) c with
                      | Some cs' => option_map (pair tt) (vput V i (VLive kd n (SLive off cs')))
                      | None => None
                      end
                  | _ => None
                  end
  | CAlloc n => match vs V with
                | false :: r => Some (None, VW (vn V) (vh V) r)
                | _ => Some (Some (length (vh V)), VW (vn V) (vh V ++ [Some (repeat None n)]) (tl (vs V)))
                end
  | CFill h k c => match nth_error (vh V) h with
                   | Some (Some cs) => match list_put cs k c with
                                       | Some cs' => option_map (pair tt) (vhput V h (Some cs'))
                                       | None => None
                                       end
                   | _ => None
                   end
  | CFree i n => match nth_error (vn V) i with
                 | Some (VLive kd m SNull, true) => Some (tt, V)
                 | Some (VLive kd m (SLive off cs), true) =>
                     if Nat.eqb off 0 && Nat.eqb (length cs) n
                     then option_map (pair tt) (vput V i (VLive kd m SGone)) else None
                 | _ => None
                 end
  | CAttach i h n => match nth_error (vn V) i, nth_error (vh V) h with
                     | Some (VLive kd _ _, true), Some (Some cs) =>
                         match vput V i (VLive kd n (SLive 0 cs)) with
                         | Some V1 => option_map (pair tt) (vhput V1 h None)
                         | None => None
                         end
                     | _, _ => None
                     end
  | CSwap i j => match nth_error (vn V) i, nth_error (vn V) j with
                 | Some (VLive k1 n1 s1, true), Some (VLive k2 n2 s2, true) =>
                     match vput V i (VLive k1 n2 s2) with
                     | Some V1 => option_map (pair tt) (vput V1 j (VLive k2 n1 s1))
                     | None => None
                     end
                 | _, _ => None
                 end
  | CNew => Some (length (vn V), VW (vn V ++ [(VLive KAllocated 0 SNull, true)]) (vh V) (vs V))
  | CEnd i => match nth_error (vn V) i with
              | Some (VLive _ _ _, true) => option_map (pair tt) (vput V i VDead)
              | _ => None
              end
  end.

(** ** One access: what it does to its own thread, and what it leaves alone *)
Definition own (s : state) (e : tenv) : Prop :=
  (forall i j o w, nth_error (names e) i = Some (o, true) -> nth_error (names e) j = Some (o, w) -> i = j) /\
  (forall x y b, may_write e x -> reach s e x b -> reach s e y b -> x = y).

Record leaves (s : state) (e : tenv) (s' : state) (e' : tenv) : Prop := {
  lv_objs : forall o, o < length (objs s) ->
    (exists i, nth_error (names e) i = Some (o, true)) \/ nth_error (objs s') o = nth_error (objs s) o;
  lv_blocks : forall b, b < length (blocks s) ->
    (exists x, may_write e x /\ reach s e x b) \/ nth_error (blocks s') b = nth_error (blocks s) b;
  lv_olen : length (objs s) <= length (objs s');
  lv_blen : length (blocks s) <= length (blocks s');
  lv_names : names e' = names e \/ names e' = names e ++ [(length (objs s), true)];
  lv_slots : exists f : slot -> slot, (forall x y, f x = f y -> x = y) /\
    forall x b, reach s' e' x b ->
      (reach s e (f x) b /\ (may_write e' x -> may_write e (f x))) \/
      (b = length (blocks s) /\ x = SBlock (length (handles e))) }.

Lemma view_name (s : state) e i o w : nth_error (names e) i = Some (o, w) ->
  nth_error (vn (view_of s e)) i = Some (ov_of s o, w).
Proof. intros H; simpl. rewrite nth_error_map, H. reflexivity. Qed.
Lemma view_no_name (s : state) e i : nth_error (names e) i = None -> nth_error (vn (view_of s e)) i = None.
Proof. intros H; simpl. rewrite nth_error_map, H. reflexivity. Qed.
Lemma view_handle (s : state) e h b : nth_error (handles e) h = Some b ->
  nth_error (vh (view_of s e)) h = Some (hv_of s b).
Proof. intros H; simpl. rewrite nth_error_map, H. reflexivity. Qed.
Lemma view_no_handle (s : state) e h : nth_error (handles e) h = None -> nth_error (vh (view_of s e)) h = None.
Proof. intros H; simpl. rewrite nth_error_map, H. reflexivity. Qed.

(** views of objects whose members and memory do not change *)
Lemma ov_same (s s' : state) o : nth_error (objs s') o = nth_error (objs s) o ->
  (forall v b off, nth_error (objs s) o = Some (Some v) -> oaddr v = Some (b, off) ->
     nth_error (blocks s') b = nth_error (blocks s) b) -> ov_of s' o = ov_of s o.
Proof.
  intros E B. unfold ov_of. rewrite E. destruct (nth_error (objs s) o) as [[v|]|] eqn:O; auto.
  f_equal. unfold st_of. destruct (oaddr v) as [[b off]|] eqn:A; auto. now rewrite (B v b off).
Qed.

(** a different way does not lead to a block that x reaches and may write *)
Lemma other_block (s : state) e x b j o w v b' off' : own s e -> may_write e x -> reach s e x b -> x <> SName j ->
  nth_error (names e) j = Some (o, w) -> nth_error (objs s) o = Some (Some v) -> oaddr v = Some (b', off') -> b' <> b.
Proof.
  intros [_ O] W R ne N1 N2 N3 ->. apply ne. apply (O x (SName j) b); auto.
  assert (L : live s b) by (destruct x; [destruct R as (? & ? & ? & ? & ? & ? & ? & L)|destruct R as [_ L]]; exact L).
  exists o, w, v, off'; auto.
Qed.
Lemma other_handle (s : state) e x b h b' : own s e -> may_write e x -> reach s e x b -> x <> SBlock h ->
  nth_error (handles e) h = Some (Some b') -> b' <> b.
Proof.
  intros [_ O] W R ne N1 ->. apply ne. apply (O x (SBlock h) b); auto.
  assert (L : live s b) by (destruct x; [destruct R as (? & ? & ? & ? & ? & ? & ? & L)|destruct R as [_ L]]; exact L).
  split; auto.
Qed.

(** the way through f = identity *)
Lemma slots_id (s : state) e (s' : state) e' : (forall x b, reach s' e' x b -> reach s e x b) -> (forall x, may_write e' x -> may_write e x) ->
  exists f : slot -> slot, (forall x y, f x = f y -> x = y) /\
    forall x b, reach s' e' x b ->
      (reach s e (f x) b /\ (may_write e' x -> may_write e (f x))) \/
      (b = length (blocks s) /\ x = SBlock (length (handles e))).
Proof. intros H W. exists (fun x => x). split; auto. Qed.

Lemma leaves_refl (s : state) e : leaves s e s e.
Proof. constructor; auto. apply slots_id; auto. Qed.

Lemma reach_live (s : state) e x b : reach s e x b -> live s b.
Proof. destruct x; simpl; [intros (? & ? & ? & ? & ? & ? & ? & L)|intros [_ L]]; exact L. Qed.
Lemma live_lt (s : state) b : live s b -> b < length (blocks s).
Proof. intros [cs H]; eapply nth_error_lt; eauto. Qed.

(** a thread stays the only owner of what it owns *)
Lemma own_leaves (s : state) e (s' : state) e' : meaningful s e -> own s e -> leaves s e s' e' -> own s' e'.
Proof.
  intros (M1 & M2 & M3) [O1 O2] L. split.
  - intros i j o w Hi Hj. destruct (lv_names _ _ _ _ L) as [E|E]; rewrite E in *; eauto.
    rewrite nth_error_snoc in Hi, Hj.
    destruct (Nat.eq_dec i (length (names e))) as [->|ni], (Nat.eq_dec j (length (names e))) as [->|nj]; auto.
    + injection Hi as <-. apply M1 in Hj. lia.
    + injection Hj as <- <-. apply M1 in Hi. lia.
    + eauto.
  - intros x y b W Rx Ry. destruct (lv_slots _ _ _ _ L) as (f & inj & F).
    destruct (F x b Rx) as [[Rx' Wx]|[bx ->]], (F y b Ry) as [[Ry' Wy]|[by_ ->]]; auto.
    + apply inj. apply (O2 (f x) (f y) b); auto.
    + subst b. apply reach_live, live_lt in Rx'. lia.
    + subst b. apply reach_live, live_lt in Ry'. lia.
Qed.

(** writing a block that the thread owns *)
Definition set_blk (s : state) (bs : list (block T)) : state := St bs (objs s) (sched s).
Section Write.
Variables (s : state) (e : tenv) (x : slot) (b : nat) (bk : block T) (bs : list (block T)).
Hypothesis (M : meaningful s e) (O : own s e) (W : may_write e x) (R : reach s e x b).
Hypothesis (P : list_put (blocks s) b bk = Some bs).
Let s' := set_blk s bs.
Lemma wr_nth b' : nth_error (blocks s') b' = if Nat.eq_dec b' b then Some bk else nth_error (blocks s) b'.
Proof. exact (nth_error_list_put _ _ _ _ b' P). Qed.
Lemma wr_live b' : live s' b' -> live s b'.
Proof.
  intros [cs H]. rewrite wr_nth in H. destruct (Nat.eq_dec b' b) as [->|ne].
  - exact (reach_live _ _ _ _ R).
  - exists cs; auto.
Qed.
Lemma wr_reach y b' : reach s' e y b' -> reach s e y b'.
Proof.
  destruct y as [i|h]; simpl.
  - intros (o & w & v & off & H1 & H2 & H3 & H4). exists o, w, v, off. repeat split; auto. now apply wr_live.
  - intros [H1 H2]; split; auto. now apply wr_live.
Qed.
Lemma wr_leaves : leaves s e s' e.
Proof.
  constructor; auto.
  - intros b' _. rewrite wr_nth. destruct (Nat.eq_dec b' b) as [->|ne]; [left; exists x; auto|auto].
  - simpl. rewrite (list_put_length _ _ _ _ P). auto.
  - apply slots_id; auto. exact wr_reach.
Qed.
Lemma wr_other_name j o w : x <> SName j -> nth_error (names e) j = Some (o, w) -> ov_of s' o = ov_of s o.
Proof.
  intros ne N. apply ov_same; auto. intros v b' off Hv Ha. rewrite wr_nth.
  destruct (Nat.eq_dec b' b) as [->|]; auto. exfalso.
  exact (other_block s e x b j o w v b off O W R ne N Hv Ha eq_refl).
Qed.
Lemma wr_other_handle h bo : x <> SBlock h -> nth_error (handles e) h = Some bo -> hv_of s' bo = hv_of s bo.
Proof.
  intros ne N. destruct bo as [b'|]; auto. simpl. rewrite wr_nth.
  destruct (Nat.eq_dec b' b) as [->|]; auto. exfalso.
  exact (other_handle s e x b h b O W R ne N eq_refl).
Qed.
Lemma wr_meaningful : (forall h, x = SBlock h -> exists cs, bk = Live cs) -> meaningful s' e.
Proof.
  intros HB. destruct M as (M1 & M2 & M3). split; [|split]; auto.
  - intros i o w v b' off H1 H2 H3. simpl. rewrite (list_put_length _ _ _ _ P). eauto.
  - intros h b' H. destruct (M3 h b' H) as [cs C]. unfold live. rewrite wr_nth.
    destruct (Nat.eq_dec b' b) as [->|]; eauto.
    assert (E : x = SBlock h). { apply (proj2 O x (SBlock h) b); auto. split; auto. exists cs; auto. }
    destruct (HB h E) as [cs' ->]. eauto.
Qed.
End Write.

(** ** views after a change *)
Lemma vput_some (s : state) e i o w x : nth_error (names e) i = Some (o, w) -> exists V', vput (view_of s e) i x = Some V'.
Proof.
  intros H. unfold vput. destruct (list_put_Some (vn (view_of s e)) i (x, true)) as [l ->]; [|eauto].
  simpl. rewrite map_length. eapply nth_error_lt; eauto.
Qed.
Lemma vhput_some (s : state) e h b x : nth_error (handles e) h = Some b -> exists V', vhput (view_of s e) h x = Some V'.
Proof.
  intros H. unfold vhput. destruct (list_put_Some (vh (view_of s e)) h x) as [l ->]; [|eauto].
  simpl. rewrite map_length. eapply nth_error_lt; eauto.
Qed.
Lemma view_eq (s : state) e V : (forall i, nth_error (vn (view_of s e)) i = nth_error (vn V) i) ->
  (forall h, nth_error (vh (view_of s e)) h = nth_error (vh V) h) -> tsched e = vs V -> view_of s e = V.
Proof.
  intros H1 H2 H3. destruct V as [l1 l2 l3]. unfold view_of in *. simpl in *. subst l3.
  f_equal; apply nth_error_ext; auto.
Qed.
Lemma view_put (s s' : state) e i o x V' : nth_error (names e) i = Some (o, true) -> vput (view_of s e) i x = Some V' ->
  ov_of s' o = x -> (forall j o' w, i <> j -> nth_error (names e) j = Some (o', w) -> ov_of s' o' = ov_of s o') ->
  (forall h bo, nth_error (handles e) h = Some bo -> hv_of s' bo = hv_of s bo) -> view_of s' e = V'.
Proof.
  intros N P X H1 H2. unfold vput in P. destruct (list_put _ _ _) as [l|] eqn:L; [injection P as <-|discriminate].
  apply view_eq; simpl; auto.
  - intros j. rewrite (nth_error_list_put _ _ _ _ j L). simpl. rewrite !nth_error_map.
    destruct (Nat.eq_dec j i) as [->|ne].
    + rewrite N. simpl. now rewrite X.
    + destruct (nth_error (names e) j) as [[o' w]|] eqn:E; auto. simpl. now rewrite (H1 j o' w) by auto.
  - intros h. rewrite !nth_error_map. destruct (nth_error (handles e) h) as [bo|] eqn:E; auto. simpl.
    now rewrite (H2 h bo).
Qed.
Lemma view_hput (s s' : state) e h b cs V' : nth_error (handles e) h = Some (Some b) -> vhput (view_of s e) h (Some cs) = Some V' ->
  hv_of s' (Some b) = Some cs -> (forall j o' w, nth_error (names e) j = Some (o', w) -> ov_of s' o' = ov_of s o') ->
  (forall h' bo, h <> h' -> nth_error (handles e) h' = Some bo -> hv_of s' bo = hv_of s bo) -> view_of s' e = V'.
Proof.
  intros N P X H1 H2. unfold vhput in P. destruct (list_put _ _ _) as [l|] eqn:L; [injection P as <-|discriminate].
  apply view_eq; simpl; auto.
  - intros j. rewrite !nth_error_map. destruct (nth_error (names e) j) as [[o' w]|] eqn:E; auto. simpl.
    now rewrite (H1 j o' w).
  - intros h'. rewrite (nth_error_list_put _ _ _ _ h' L). simpl. rewrite !nth_error_map.
    destruct (Nat.eq_dec h' h) as [->|ne].
    + rewrite N. simpl in *. now rewrite X.
    + destruct (nth_error (handles e) h') as [bo|] eqn:E; auto. simpl. now rewrite (H2 h' bo) by auto.
Qed.

Definition simulates (c : cmd T) (s : state) (e : tenv) : Prop :=
  match vexec c (view_of s e) with
  | Some (a, V') => exists e' s', exec c e s = ROk (a, e') s' /\ view_of s' e' = V' /\ meaningful s' e' /\ leaves s e s' e'
  | None => exists u, exec c e s = RUB u
  end.

Ltac names_of i := match goal with |- context [nth_error (names ?e) i] =>
  let o := fresh "o" in let w := fresh "w" in let N := fresh "N" in
  destruct (nth_error (names e) i) as [[o w]|] eqn:N end.

Lemma sim_info i s e : meaningful s e -> simulates (CInfo i) s e.
Proof.
  intros M. unfold simulates. cbn [vexec exec]. unfold bindM, named.
  destruct (nth_error (names e) i) as [[o w]|] eqn:N.
  - rewrite (view_name s e i o w N). unfold ov_of, get_obj.
    destruct (nth_error (objs s) o) as [[v|]|]; eauto.
    exists e, s; split; [reflexivity|]. auto using leaves_refl.
  - rewrite (view_no_name s e i N). eauto.
Qed.
Lemma sim_cell i k s e : meaningful s e -> simulates (CCell i k) s e.
Proof.
  intros M. unfold simulates. cbn [vexec exec]. unfold bindM, named.
  destruct (nth_error (names e) i) as [[o w]|] eqn:N.
  - rewrite (view_name s e i o w N). unfold ov_of, get_obj, st_of, rd_cell, get_block.
    destruct (nth_error (objs s) o) as [[v|]|]; eauto.
    destruct (oaddr v) as [[b off]|]; [|unfold ubM; eauto].
    destruct (nth_error (blocks s) b) as [[cs|]|]; eauto.
    destruct (nth_error cs (off + k)); eauto.
    exists e, s; split; [reflexivity|]. auto using leaves_refl.
  - rewrite (view_no_name s e i N). eauto.
Qed.
Lemma wr_cellE (s : state) b i c cs : nth_error (blocks s) b = Some (Live cs) ->
  match list_put cs i c with
  | Some cs' => exists bs, list_put (blocks s) b (Live cs') = Some bs /\ wr_cell b i c s = ROk tt (set_blk s bs)
  | None => wr_cell b i c s = RUB UBMem
  end.
Proof.
  intros B. unfold wr_cell, get_block. rewrite B. destruct (list_put cs i c) as [cs'|]; auto.
  destruct (list_put_Some (blocks s) b (Live cs')) as [bs P]; [eapply nth_error_lt; eauto|].
  exists bs; split; auto. unfold set_block. now rewrite P.
Qed.
Lemma sim_set i k c s e : meaningful s e -> own s e -> simulates (CSet i k c) s e.
Proof.
  intros M O. unfold simulates. cbn [vexec exec]. unfold bindM, writable.
  destruct (nth_error (names e) i) as [[o w]|] eqn:N; [|rewrite (view_no_name s e i N); eauto].
  rewrite (view_name s e i o w N). unfold ov_of, get_obj.
  destruct w; [|destruct (nth_error (objs s) o) as [[v|]|]; eauto; destruct (st_of s (oaddr v)); eauto].
  destruct (nth_error (objs s) o) as [[v|]|] eqn:Ob; eauto.
  destruct (oaddr v) as [[b off]|] eqn:A; [|simpl; unfold ubM; eauto].
  cbn [st_of]. destruct (nth_error (blocks s) b) as [[cs|]|] eqn:B;
    [|unfold wr_cell, get_block; rewrite B; eauto..].
  pose proof (wr_cellE s b (off + k) c cs B) as E.
  destruct (list_put cs (off + k) c) as [cs'|] eqn:P; [|rewrite E; eauto].
  destruct E as (bs & E1 & ->).
  assert (W : may_write e (SName i)) by (exists o; auto).
  assert (R : reach s e (SName i) b) by (exists o, true, v, off; repeat split; auto; exists cs; auto).
  destruct (vput_some s e i o true (VLive (okind v) (olen v) (SLive off cs')) N) as [V' HV]. rewrite HV.
  cbn [option_map]. exists e, (set_blk s bs). split; [reflexivity|]. split; [|split].
  - eapply (view_put s (set_blk s bs)); eauto.
    + unfold ov_of. simpl. rewrite Ob, A. cbn [st_of]. rewrite (wr_nth s b (Live cs') bs E1).
      destruct (Nat.eq_dec b b) as [_|]; [reflexivity|contradiction].
    + intros j o' w ne Hj. eapply (wr_other_name s e (SName i) b); eauto. congruence.
    + intros h bo Hh. eapply (wr_other_handle s e (SName i) b); eauto. congruence.
  - eapply (wr_meaningful s e (SName i) b); eauto.
  - eapply (wr_leaves s e (SName i) b); eauto.
Qed.
Lemma sim_fill h k c s e : meaningful s e -> own s e -> simulates (CFill h k c) s e.
Proof.
  intros M O. unfold simulates. cbn [vexec exec]. unfold bindM, handle.
  destruct (nth_error (handles e) h) as [[b|]|] eqn:N;
    [|rewrite (view_handle s e h None N); simpl; eauto|rewrite (view_no_handle s e h N); eauto].
  rewrite (view_handle s e h _ N). destruct (proj2 (proj2 M) h b N) as [cs B]. cbn [hv_of]. rewrite B.
  pose proof (wr_cellE s b k c cs B) as E.
  destruct (list_put cs k c) as [cs'|] eqn:P; [|rewrite E; eauto].
  destruct E as (bs & E1 & ->).
  assert (W : may_write e (SBlock h)) by exact I.
  assert (R : reach s e (SBlock h) b) by (split; auto; exists cs; auto).
  destruct (vhput_some s e h _ (Some cs') N) as [V' HV]. rewrite HV.
  cbn [option_map]. exists e, (set_blk s bs). split; [reflexivity|]. split; [|split].
  - eapply (view_hput s (set_blk s bs)); eauto.
    + cbn [hv_of]. rewrite (wr_nth s b (Live cs') bs E1).
      destruct (Nat.eq_dec b b) as [_|]; [reflexivity|contradiction].
    + intros j o' w Hj. eapply (wr_other_name s e (SBlock h) b); eauto. congruence.
    + intros h' bo ne Hh. eapply (wr_other_handle s e (SBlock h) b); eauto. congruence.
  - eapply (wr_meaningful s e (SBlock h) b); eauto.
  - eapply (wr_leaves s e (SBlock h) b); eauto.
Qed.
Lemma sim_free i n s e : meaningful s e -> own s e -> simulates (CFree i n) s e.
Proof.
  intros M O. unfold simulates. cbn [vexec exec]. unfold bindM, writable.
  destruct (nth_error (names e) i) as [[o w]|] eqn:N; [|rewrite (view_no_name s e i N); eauto].
  rewrite (view_name s e i o w N). unfold ov_of, get_obj.
  destruct w; [|destruct (nth_error (objs s) o) as [[v|]|]; eauto; destruct (st_of s (oaddr v)); eauto].
  destruct (nth_error (objs s) o) as [[v|]|] eqn:Ob; eauto.
  destruct (oaddr v) as [[b off]|] eqn:A; [|simpl; exists e, s; split; [reflexivity|]; auto using leaves_refl].
  cbn [st_of dealloc]. unfold get_block. destruct (nth_error (blocks s) b) as [[cs|]|] eqn:B; eauto.
  destruct (Nat.eqb off 0 && Nat.eqb (length cs) n); eauto.
  unfold set_block. destruct (list_put_Some (blocks s) b Freed) as [bs P]; [eapply nth_error_lt; eauto|].
  rewrite P. fold (set_blk s bs).
  assert (W : may_write e (SName i)) by (exists o; auto).
  assert (R : reach s e (SName i) b) by (exists o, true, v, off; repeat split; auto; exists cs; auto).
  destruct (vput_some s e i o true (VLive (okind v) (olen v) SGone) N) as [V' HV]. rewrite HV.
  cbn [option_map]. exists e, (set_blk s bs). split; [reflexivity|]. split; [|split].
  - eapply (view_put s (set_blk s bs)); eauto.
    + unfold ov_of. simpl. rewrite Ob, A. cbn [st_of]. rewrite (wr_nth s b Freed bs P).
      destruct (Nat.eq_dec b b) as [_|]; [reflexivity|contradiction].
    + intros j o' w ne Hj. eapply (wr_other_name s e (SName i) b); eauto. congruence.
    + intros h bo Hh. eapply (wr_other_handle s e (SName i) b); eauto. congruence.
  - eapply (wr_meaningful s e (SName i) b); eauto. discriminate.
  - eapply (wr_leaves s e (SName i) b); eauto.
Qed.

(** ** allocation *)
Definition grown (s : state) (n : nat) : state := St (blocks s ++ [Live (repeat None n)]) (objs s) (sched s).
Lemma grown_nth s n b : nth_error (blocks (grown s n)) b =
  if Nat.eq_dec b (length (blocks s)) then Some (Live (repeat None n)) else nth_error (blocks s) b.
Proof. apply nth_error_snoc. Qed.
Lemma grown_old s n b : b < length (blocks s) -> nth_error (blocks (grown s n)) b = nth_error (blocks s) b.
Proof. intros H. rewrite grown_nth. destruct (Nat.eq_dec _ _); [lia|auto]. Qed.
Lemma sim_alloc n s e : meaningful s e -> simulates (CAlloc n) s e.
Proof.
  intros (M1 & M2 & M3). unfold simulates. cbn [vexec exec].
  change (vs (view_of s e)) with (tsched e).
  assert (OK : let e' := TE (names e) (handles e ++ [Some (length (blocks s))]) (tl (tsched e)) in
     view_of (grown s n) e' = VW (vn (view_of s e)) (vh (view_of s e) ++ [Some (repeat None n)]) (tl (tsched e)) /\
     meaningful (grown s n) e' /\ leaves s e (grown s n) e').
  { intros e'. split; [|split].
    - apply view_eq; simpl; auto.
      + intros j. rewrite !nth_error_map. destruct (nth_error (names e) j) as [[o w]|] eqn:E; auto. simpl.
        do 2 f_equal. apply ov_same; auto. intros v b off Hv Ha. apply grown_old. eauto.
      + intros h. rewrite map_app. simpl. rewrite !nth_error_snoc, !map_length.
        destruct (Nat.eq_dec h (length (handles e))) as [->|ne].
        * destruct (Nat.eq_dec _ _); [auto|contradiction].
        * rewrite !nth_error_map. destruct (nth_error (handles e) h) as [[b|]|] eqn:E; auto. simpl.
          change (blocks s ++ [Live (repeat None n)]) with (blocks (grown s n)).
          rewrite (grown_old s n b); auto. apply live_lt. eauto.
    - split; [|split]; simpl; auto.
      + intros i o w v b off H1 H2 H3. rewrite app_length. specialize (M2 i o w v b off H1 H2 H3). lia.
      + intros h b. rewrite nth_error_snoc. unfold live. rewrite grown_nth.
        destruct (Nat.eq_dec h (length (handles e))) as [->|ne]; intros H.
        * injection H as <-. destruct (Nat.eq_dec _ _); [eauto|contradiction].
        * destruct (Nat.eq_dec _ _); [eauto|]. exact (M3 h b H).
    - constructor; simpl; auto.
      + intros b Hb. right. now apply grown_old.
      + rewrite app_length; lia.
      + exists (fun x => x). split; auto. intros [i|h] b; simpl.
        * intros (o & w & v & off & H1 & H2 & H3 & [cs H4]). left. split; auto.
          exists o, w, v, off. repeat split; auto. exists cs. rewrite <- H4. symmetry. apply grown_old. eauto.
        * rewrite nth_error_snoc. destruct (Nat.eq_dec h (length (handles e))) as [->|ne]; intros [H [cs C]].
          -- injection H as <-. auto.
          -- left. split; auto. split; auto. exact (M3 h b H). }
  destruct (tsched e) as [|[|] r] eqn:E; cbn [tl] in OK |- *.
  - do 2 eexists. split; [|exact OK]. simpl. now rewrite map_length.
  - do 2 eexists. split; [|exact OK]. simpl. now rewrite map_length.
  - do 2 eexists. split; [reflexivity|]. split; [reflexivity|]. split; [now repeat split|].
    constructor; simpl; auto. apply slots_id; auto.
Qed.

(** ** a new vector *)
Lemma sim_new s e : meaningful s e -> simulates CNew s e.
Proof.
  intros (M1 & M2 & M3). unfold simulates. cbn [vexec exec]. unfold bindM, new_obj, ret.
  do 2 eexists. split; [simpl; now rewrite map_length|]. split; [|split].
  - apply view_eq; simpl; auto.
    intros j. rewrite map_app. simpl. rewrite !nth_error_snoc, !map_length.
    destruct (Nat.eq_dec j (length (names e))) as [->|ne].
    + unfold ov_of. simpl. rewrite nth_error_snoc. destruct (Nat.eq_dec _ _); [auto|contradiction].
    + rewrite !nth_error_map. destruct (nth_error (names e) j) as [[o w]|] eqn:E; auto. simpl.
      do 2 f_equal. apply ov_same; auto. simpl. rewrite nth_error_snoc.
      destruct (Nat.eq_dec o (length (objs s))) as [->|]; auto. apply M1 in E. lia.
  - split; [|split]; simpl; auto.
    + intros i o w. rewrite nth_error_snoc, app_length. simpl.
      destruct (Nat.eq_dec i (length (names e))) as [->|]; intros H; [injection H as <- _; lia|].
      apply M1 in H. lia.
    + intros i o w v b off. rewrite !nth_error_snoc.
      destruct (Nat.eq_dec i (length (names e))) as [->|]; intros H.
      * injection H as <- _. destruct (Nat.eq_dec _ _); [|contradiction]. intros H; injection H as <-. discriminate.
      * destruct (Nat.eq_dec o (length (objs s))) as [->|]; [apply M1 in H; lia|]. eauto.
  - constructor; simpl; auto.
    + intros o Ho. right. rewrite nth_error_snoc. destruct (Nat.eq_dec _ _); [lia|auto].
    + rewrite app_length; lia.
    + exists (fun x => x). split; auto. intros [i|h] b; simpl; auto.
      * intros (o & w & v & off & H1 & H2 & H3 & H4). left.
        rewrite nth_error_snoc in H1 |- *. destruct (Nat.eq_dec i (length (names e))) as [->|].
        -- injection H1 as <- _. rewrite nth_error_snoc in H2. destruct (Nat.eq_dec _ _); [|contradiction].
           injection H2 as <-. discriminate.
        -- pose proof (M1 _ _ _ H1). rewrite nth_error_snoc in H2. destruct (Nat.eq_dec _ _); [lia|].
           split; auto. exists o, w, v, off. auto.
Qed.

(** ** writing the members of a vector that the thread owns *)
Definition set_ob (s : state) (os : list (option vobj)) : state := St (blocks s) os (sched s).
Section Members.
Variables (s : state) (e : tenv) (i o : nat) (y : option vobj) (os : list (option vobj)).
Hypothesis (M : meaningful s e) (O : own s e) (N : nth_error (names e) i = Some (o, true)).
Hypothesis (P : list_put (objs s) o y = Some os).
Let s' := set_ob s os.
Lemma mb_nth o' : nth_error (objs s') o' = if Nat.eq_dec o' o then Some y else nth_error (objs s) o'.
Proof. exact (nth_error_list_put _ _ _ _ o' P). Qed.
Lemma mb_other j o' w : i <> j -> nth_error (names e) j = Some (o', w) -> o' <> o.
Proof. intros ne Nj ->. apply ne. exact (proj1 O i j o w N Nj). Qed.
Lemma mb_other_view j o' w : i <> j -> nth_error (names e) j = Some (o', w) -> ov_of s' o' = ov_of s o'.
Proof.
  intros ne Nj. apply ov_same; auto. rewrite mb_nth.
  destruct (Nat.eq_dec o' o) as [E|]; auto. exfalso. exact (mb_other j o' w ne Nj E).
Qed.
Lemma mb_reach j b : i <> j -> reach s' e (SName j) b -> reach s e (SName j) b.
Proof.
  intros ne (o' & w & v & off & H1 & H2 & H3 & H4). rewrite mb_nth in H2.
  destruct (Nat.eq_dec o' o) as [E|]; [exfalso; exact (mb_other j o' w ne H1 E)|].
  exists o', w, v, off; auto.
Qed.
Lemma mb_objs o' : o' < length (objs s) ->
  (exists j, nth_error (names e) j = Some (o', true)) \/ nth_error (objs s') o' = nth_error (objs s) o'.
Proof. intros _. rewrite mb_nth. destruct (Nat.eq_dec o' o) as [->|]; eauto. Qed.
End Members.

Lemma sim_end i s e : meaningful s e -> own s e -> simulates (CEnd i) s e.
Proof.
  intros M O. unfold simulates. cbn [vexec exec]. unfold bindM, writable.
  destruct (nth_error (names e) i) as [[o w]|] eqn:N; [|rewrite (view_no_name s e i N); eauto].
  rewrite (view_name s e i o w N). unfold ov_of, get_obj.
  destruct w; [|destruct (nth_error (objs s) o) as [[v|]|]; eauto; destruct (st_of s (oaddr v)); eauto].
  destruct (nth_error (objs s) o) as [[v|]|] eqn:Ob; eauto.
  unfold set_obj. destruct (list_put_Some (objs s) o None) as [os P]; [eapply nth_error_lt; eauto|].
  rewrite P. fold (set_ob s os).
  destruct (vput_some s e i o true VDead N) as [V' HV]. rewrite HV. cbn [option_map].
  exists e, (set_ob s os). split; [reflexivity|].
  assert (L : length os = length (objs s)) by exact (list_put_length _ _ _ _ P).
  split; [|split].
  - eapply (view_put s (set_ob s os)); eauto.
    + unfold ov_of. rewrite (mb_nth s o None os P). destruct (Nat.eq_dec o o); [reflexivity|contradiction].
    + intros j o' w ne Hj. eapply (mb_other_view s e i o None); eauto.
  - destruct M as (M1 & M2 & M3). split; [|split]; auto.
    + intros j o' w H. simpl. rewrite L. eauto.
    + intros j o' w v' b off H1 H2 H3. rewrite (mb_nth s o None os P) in H2.
      destruct (Nat.eq_dec o' o); [discriminate|]. simpl. eauto.
  - constructor; auto.
    + eapply (mb_objs s e i o None); eauto.
    + simpl; lia.
    + apply slots_id; auto. intros [j|h] b; auto. simpl.
      intros (o' & w & v' & off & H1 & H2 & H3 & H4). change (nth_error (objs (set_ob s os)) o' = Some (Some v')) in H2.
      rewrite (mb_nth s o None os P) in H2. destruct (Nat.eq_dec o' o); [discriminate|]. exists o', w, v', off; auto.
Qed.

Lemma slot_dec (x y : slot) : {x = y} + {x <> y}.
Proof. decide equality; apply Nat.eq_dec. Qed.
Definition exch (a b x : slot) : slot := if slot_dec x a then b else if slot_dec x b then a else x.
Lemma exch_inj a b x y : exch a b x = exch a b y -> x = y.
Proof.
  unfold exch. intros E.
  destruct (slot_dec x a), (slot_dec y a), (slot_dec x b), (slot_dec y b); congruence.
Qed.

Lemma release_nth l h h' b : nth_error l h = Some b ->
  nth_error (release l h) h' = if Nat.eq_dec h' h then Some None else nth_error l h'.
Proof.
  intros H. unfold release. destruct (list_put_Some l h None) as [l' P]; [eapply nth_error_lt; eauto|].
  rewrite P. exact (nth_error_list_put _ _ _ _ h' P).
Qed.
Lemma sim_attach i h n s e : meaningful s e -> own s e -> simulates (CAttach i h n) s e.
Proof.
  intros M O. unfold simulates. cbn [vexec exec]. unfold bindM, writable, handle.
  destruct (nth_error (names e) i) as [[o w]|] eqn:N; [|rewrite (view_no_name s e i N); eauto].
  rewrite (view_name s e i o w N). unfold get_obj.
  destruct w; [|destruct (ov_of s o); eauto].
  destruct (nth_error (handles e) h) as [[b|]|] eqn:Hh;
    [|rewrite (view_handle s e h None Hh); simpl; destruct (ov_of s o); eauto
     |rewrite (view_no_handle s e h Hh); destruct (ov_of s o); eauto].
  rewrite (view_handle s e h _ Hh). destruct (proj2 (proj2 M) h b Hh) as [cs B]. cbn [hv_of]. rewrite B.
  unfold ov_of at 1.
  destruct (nth_error (objs s) o) as [[v|]|] eqn:Ob; eauto.
  unfold set_obj. set (y := Some (VObj (okind v) (Some (b, 0)) n)).
  destruct (list_put_Some (objs s) o y) as [os P]; [eapply nth_error_lt; eauto|].
  rewrite P. fold (set_ob s os). unfold ret.
  set (e' := TE (names e) (release (handles e) h) (tsched e)).
  destruct (vput_some s e i o true (VLive (okind v) n (SLive 0 cs)) N) as [V1 HV]. rewrite HV.
  assert (L : length os = length (objs s)) by exact (list_put_length _ _ _ _ P).
  assert (V1E : view_of (set_ob s os) e = V1).
  { eapply (view_put s (set_ob s os)); eauto.
    - unfold ov_of. rewrite (mb_nth s o y os P). destruct (Nat.eq_dec o o); [|contradiction].
      unfold y. simpl. now rewrite B.
    - intros j o' w ne Hj. eapply (mb_other_view s e i o y); eauto. }
  subst V1. destruct (vhput_some (set_ob s os) e h _ None Hh) as [V' HV']. rewrite HV'. cbn [option_map].
  exists e', (set_ob s os). split; [reflexivity|].
  assert (RS : forall j c, reach (set_ob s os) e' (SName j) c -> reach s e (exch (SName i) (SBlock h) (SName j)) c).
  { intros j c (o' & w & v' & off & H1 & H2 & H3 & H4). rewrite (mb_nth s o y os P) in H2. unfold exch.
    destruct (slot_dec (SName j) (SName i)) as [E|ne].
    - injection E as ->. cbn [names e'] in H1. rewrite N in H1. injection H1 as <- <-.
      destruct (Nat.eq_dec o o); [|contradiction]. unfold y in H2. injection H2 as <-. cbn [oaddr] in H3. injection H3 as <- <-.
      split; auto.
    - destruct (slot_dec (SName j) (SBlock h)); [discriminate|].
      destruct (Nat.eq_dec o' o) as [->|]; [|exists o', w, v', off; auto].
      exfalso. apply ne. f_equal. symmetry. exact (proj1 O i j o w N H1). }
  split; [|split].
  - unfold vhput in HV'. destruct (list_put _ h None) as [l|] eqn:LP; [injection HV' as <-|discriminate].
    apply view_eq; simpl; auto. intros h'. rewrite (nth_error_list_put _ _ _ _ h' LP). simpl.
    rewrite !nth_error_map, (release_nth _ _ h' _ Hh). destruct (Nat.eq_dec h' h); auto.
  - destruct M as (M1 & M2 & M3). split; [|split]; auto.
    + intros j o' w H. simpl. rewrite L. eauto.
    + intros j o' w v' b' off H1 H2 H3. rewrite (mb_nth s o y os P) in H2.
      destruct (Nat.eq_dec o' o); [|simpl; eauto].
      unfold y in H2. injection H2 as <-. cbn [oaddr] in H3. injection H3 as <- <-.
      apply (nth_error_lt _ _ _ B).
    + intros h' b'. cbn [handles e']. rewrite (release_nth _ _ h' _ Hh).
      destruct (Nat.eq_dec h' h); [discriminate|]. apply M3.
  - constructor; auto.
    + eapply (mb_objs s e i o y); eauto.
    + simpl; lia.
    + exists (exch (SName i) (SBlock h)). split; [intros x z; apply exch_inj|].
      intros [j|h'] c R; left.
      * split; [now apply RS|]. unfold exch. destruct (slot_dec _ _); [simpl; auto|].
        destruct (slot_dec _ _); [discriminate|auto].
      * cbn [reach] in R. cbn [handles e'] in R. rewrite (release_nth _ _ h' _ Hh) in R.
        destruct R as [R1 R2]. destruct (Nat.eq_dec h' h); [discriminate|].
        unfold exch. destruct (slot_dec _ _); [discriminate|]. destruct (slot_dec _ _); [congruence|].
        split; auto. split; auto.
Qed.

Lemma vn_nth (V : view) i x V' j : vput V i x = Some V' ->
  nth_error (vn V') j = if Nat.eq_dec j i then Some (x, true) else nth_error (vn V) j.
Proof.
  unfold vput. destruct (list_put _ _ _) as [l|] eqn:L; [intros [= <-]|discriminate].
  exact (nth_error_list_put _ _ _ _ j L).
Qed.
Lemma vput_rest (V : view) i x V' : vput V i x = Some V' -> vh V' = vh V /\ vs V' = vs V.
Proof. unfold vput. destruct (list_put _ _ _) as [l|]; [intros [= <-]; auto|discriminate]. Qed.
Lemma vput_ok (V : view) i x p : nth_error (vn V) i = Some p -> exists V', vput V i x = Some V'.
Proof.
  intros H. unfold vput. destruct (list_put_Some (vn V) i (x, true)) as [l ->]; [|eauto].
  eapply nth_error_lt; eauto.
Qed.
Lemma sim_swap i j s e : meaningful s e -> own s e -> simulates (CSwap i j) s e.
Proof.
  intros M O. unfold simulates. cbn [vexec exec]. unfold bindM, writable.
  destruct (nth_error (names e) i) as [[o1 w1]|] eqn:N1; [|rewrite (view_no_name s e i N1); eauto].
  rewrite (view_name s e i o1 w1 N1).
  destruct (nth_error (names e) j) as [[o2 w2]|] eqn:N2;
    [|rewrite (view_no_name s e j N2); destruct (ov_of s o1), w1; eauto].
  rewrite (view_name s e j o2 w2 N2).
  destruct w1; [|destruct (ov_of s o1); eauto].
  destruct w2; [|destruct (ov_of s o1); eauto; destruct (ov_of s o2); eauto].
  unfold move_assign, bindM, get_obj, ov_of.
  destruct (nth_error (objs s) o1) as [[v1|]|] eqn:B1; eauto.
  destruct (nth_error (objs s) o2) as [[v2|]|] eqn:B2; eauto.
  set (y1 := Some (VObj (okind v1) (oaddr v2) (olen v2))).
  set (y2 := Some (VObj (okind v2) (oaddr v1) (olen v1))).
  unfold set_obj.
  destruct (list_put_Some (objs s) o1 y1) as [os1 P1]; [eapply nth_error_lt; eauto|].
  rewrite P1. cbn [objs blocks sched].
  destruct (list_put_Some os1 o2 y2) as [os P2].
  { rewrite (list_put_length _ _ _ _ P1). eapply nth_error_lt; eauto. }
  rewrite P2. unfold ret. fold (set_ob s os).
  destruct (vput_some s e i o1 true (VLive (okind v1) (olen v2) (st_of s (oaddr v2))) N1) as [V1 HV1]. rewrite HV1.
  destruct (vput_ok V1 j (VLive (okind v2) (olen v1) (st_of s (oaddr v1)))
              (nth_default (VDead, true) (vn V1) j)) as [V' HV].
  { unfold nth_default. rewrite (vn_nth _ _ _ _ j HV1), (view_name s e j o2 true N2). now destruct (Nat.eq_dec j i). }
  rewrite HV. cbn [option_map].
  exists e, (set_ob s os). split; [reflexivity|].
  assert (L : length os = length (objs s))
    by (rewrite (list_put_length _ _ _ _ P2); exact (list_put_length _ _ _ _ P1)).
  assert (NB : forall o, nth_error (objs (set_ob s os)) o =
             if Nat.eq_dec o o2 then Some y2 else if Nat.eq_dec o o1 then Some y1 else nth_error (objs s) o).
  { intros o. simpl. rewrite (nth_error_list_put _ _ _ _ o P2). destruct (Nat.eq_dec o o2); auto.
    exact (nth_error_list_put _ _ _ _ o P1). }
  assert (U1 : forall k w, nth_error (names e) k = Some (o1, w) -> k = i) by (intros; symmetry; eapply O; eauto).
  assert (U2 : forall k w, nth_error (names e) k = Some (o2, w) -> k = j) by (intros; symmetry; eapply O; eauto).
  split; [|split].
  - destruct (vput_rest _ _ _ _ HV) as [E1 E2], (vput_rest _ _ _ _ HV1) as [E3 E4].
    apply view_eq.
    + intros k. rewrite (vn_nth _ _ _ _ k HV), (vn_nth _ _ _ _ k HV1).
      destruct (nth_error (names e) k) as [[o w]|] eqn:Nk.
      * rewrite (view_name _ _ _ _ _ Nk). unfold ov_of. rewrite NB.
        destruct (Nat.eq_dec k j) as [->|nj].
        { rewrite N2 in Nk. injection Nk as <- <-. destruct (Nat.eq_dec o2 o2); [|contradiction]. reflexivity. }
        destruct (Nat.eq_dec o o2) as [->|]; [exfalso; eauto|].
        destruct (Nat.eq_dec k i) as [->|ni].
        { rewrite N1 in Nk. injection Nk as <- <-. destruct (Nat.eq_dec o1 o1); [|contradiction]. reflexivity. }
        destruct (Nat.eq_dec o o1) as [->|]; [exfalso; eauto|].
        rewrite (view_name s e k o w Nk). reflexivity.
      * rewrite !(view_no_name _ _ _ Nk).
        destruct (Nat.eq_dec k j) as [->|]; [congruence|]. destruct (Nat.eq_dec k i) as [->|]; [congruence|]. auto.
    + intros h. rewrite E1, E3. reflexivity.
    + rewrite E2, E4. reflexivity.
  - destruct M as (M1 & M2 & M3). split; [|split]; auto.
    + intros k o w H. simpl. rewrite L. eauto.
    + intros k o w v b off H1 H2 H3. rewrite NB in H2. simpl.
      destruct (Nat.eq_dec o o2); [injection H2 as <-; eauto|].
      destruct (Nat.eq_dec o o1); [injection H2 as <-; eauto|]. eauto.
  - constructor; auto.
    + intros o _. rewrite NB. destruct (Nat.eq_dec o o2) as [->|]; [eauto|]. destruct (Nat.eq_dec o o1) as [->|]; eauto.
    + simpl; lia.
    + exists (exch (SName i) (SName j)). split; [intros x z; apply exch_inj|].
      intros [k|h] b R; left.
      * destruct R as (o & w & v & off & H1 & H2 & H3 & H4). rewrite NB in H2. unfold exch.
        destruct (slot_dec (SName k) (SName i)) as [E|ni]; [injection E as ->|].
        { rewrite N1 in H1. injection H1 as <- <-.
          destruct (Nat.eq_dec o1 o2) as [E|]; [|destruct (Nat.eq_dec o1 o1); [|contradiction]].
          - injection H2 as <-. subst o2. rewrite B1 in B2. injection B2 as <-. split; [|simpl; eauto].
            assert (i = j) as <- by eauto. exists o1, true, v1, off; auto.
          - injection H2 as <-. split; [|simpl; eauto]. exists o2, true, v2, off; auto. }
        destruct (slot_dec (SName k) (SName j)) as [E|nj]; [injection E as ->|].
        { rewrite N2 in H1. injection H1 as <- <-. destruct (Nat.eq_dec o2 o2); [|contradiction].
          injection H2 as <-. split; [|simpl; eauto]. exists o1, true, v1, off; auto. }
        destruct (Nat.eq_dec o o2) as [->|]; [exfalso; apply nj; f_equal; eauto|].
        destruct (Nat.eq_dec o o1) as [->|]; [exfalso; apply ni; f_equal; eauto|].
        split; auto. exists o, w, v, off; auto.
      * unfold exch. destruct (slot_dec _ _); [discriminate|]. destruct (slot_dec _ _); [discriminate|].
        split; auto.
Qed.

Lemma exec_sim c s e : meaningful s e -> own s e -> simulates c s e.
Proof.
  intros M O. destruct c; auto using sim_info, sim_cell, sim_set, sim_alloc, sim_fill, sim_free, sim_attach, sim_swap, sim_new, sim_end.
Qed.

(** ** The other threads *)
Definition apart (s : state) (e e2 : tenv) : Prop :=
  (forall i j o w, nth_error (names e) i = Some (o, true) -> nth_error (names e2) j = Some (o, w) -> False) /\
  (forall x y b, may_write e x -> reach s e x b -> reach s e2 y b -> False).

Section Other.
Variables (s s' : state) (e e' e2 : tenv).
Hypothesis (L : leaves s e s' e') (A : apart s e e2) (M2 : meaningful s e2).
Lemma ot_obj j o w : nth_error (names e2) j = Some (o, w) -> nth_error (objs s') o = nth_error (objs s) o.
Proof.
  intros N. destruct (lv_objs _ _ _ _ L o) as [[i H]|H]; auto.
  - exact (proj1 M2 j o w N).
  - exfalso. exact (proj1 A i j o w H N).
Qed.
Lemma ot_block b y : reach s e2 y b -> nth_error (blocks s') b = nth_error (blocks s) b.
Proof.
  intros R. destruct (lv_blocks _ _ _ _ L b) as [(x & W & R')|H]; auto.
  - eapply live_lt, reach_live; eauto.
  - exfalso. exact (proj2 A x y b W R' R).
Qed.
Lemma ot_addr j o w v b off : nth_error (names e2) j = Some (o, w) -> nth_error (objs s) o = Some (Some v) ->
  oaddr v = Some (b, off) -> nth_error (blocks s') b = nth_error (blocks s) b.
Proof.
  intros N Ob Ad. destruct (lv_blocks _ _ _ _ L b) as [(x & W & R)|H]; auto.
  - exact (proj1 (proj2 M2) j o w v b off N Ob Ad).
  - exfalso. apply (proj2 A x (SName j) b W R). exists o, w, v, off. repeat split; auto. eapply reach_live; eauto.
Qed.
Lemma ot_handle h b : nth_error (handles e2) h = Some (Some b) -> nth_error (blocks s') b = nth_error (blocks s) b.
Proof. intros H. apply (ot_block b (SBlock h)). split; auto. exact (proj2 (proj2 M2) h b H). Qed.
Lemma ot_view : view_of s' e2 = view_of s e2.
Proof.
  apply view_eq; simpl; auto.
  - intros j. rewrite !nth_error_map. destruct (nth_error (names e2) j) as [[o w]|] eqn:N; auto. simpl.
    do 2 f_equal. apply ov_same; [eapply ot_obj; eauto|]. intros. eapply ot_addr; eauto.
  - intros h. rewrite !nth_error_map. destruct (nth_error (handles e2) h) as [[b|]|] eqn:N; auto. simpl.
    now rewrite (ot_handle h b N).
Qed.
Lemma ot_meaningful : meaningful s' e2.
Proof.
  destruct M2 as (H1 & H2 & H3). split; [|split].
  - intros i o w N. pose proof (lv_olen _ _ _ _ L). specialize (H1 i o w N). lia.
  - intros i o w v b off N Ob Ad. rewrite (ot_obj i o w N) in Ob. pose proof (lv_blen _ _ _ _ L).
    specialize (H2 i o w v b off N Ob Ad). lia.
  - intros h b N. destruct (H3 h b N) as [cs C]. exists cs. now rewrite (ot_handle h b N).
Qed.
Lemma ot_reach y b : reach s' e2 y b -> reach s e2 y b.
Proof.
  destruct y as [j|h]; simpl.
  - intros (o & w & v & off & N & Ob & Ad & cs & Lv). rewrite (ot_obj j o w N) in Ob.
    rewrite (ot_addr j o w v b off N Ob Ad) in Lv. exists o, w, v, off. repeat split; auto. exists cs; auto.
  - intros [N [cs Lv]]. split; auto. exists cs. now rewrite <- (ot_handle h b N).
Qed.
Lemma ot_apart : meaningful s e -> apart s' e' e2.
Proof.
  intros M. split.
  - intros i j o w Hi Hj. destruct (lv_names _ _ _ _ L) as [E|E]; rewrite E in Hi.
    + exact (proj1 A i j o w Hi Hj).
    + rewrite nth_error_snoc in Hi. destruct (Nat.eq_dec i (length (names e))).
      * injection Hi as <-. pose proof (proj1 M2 j _ w Hj). lia.
      * exact (proj1 A i j o w Hi Hj).
  - intros x y b W R Ry. apply ot_reach in Ry.
    destruct (lv_slots _ _ _ _ L) as (f & _ & F). destruct (F x b R) as [[R' W']|[E _]].
    + exact (proj2 A (f x) y b (W' W) R' Ry).
    + subst b. apply reach_live, live_lt in Ry. lia.
Qed.
(** the other direction *)
Lemma ot_apart_rev : apart s e2 e -> apart s' e2 e'.
Proof.
  intros A'. split.
  - intros j i o w Hj Hi. destruct (lv_names _ _ _ _ L) as [E|E]; rewrite E in Hi.
    + exact (proj1 A' j i o w Hj Hi).
    + rewrite nth_error_snoc in Hi. destruct (Nat.eq_dec i (length (names e))).
      * injection Hi as <- <-. pose proof (proj1 M2 j _ true Hj). lia.
      * exact (proj1 A' j i o w Hj Hi).
  - intros y x b W Ry R. apply ot_reach in Ry.
    destruct (lv_slots _ _ _ _ L) as (f & _ & F). destruct (F x b R) as [[R' _]|[E _]].
    + exact (proj2 A' y (f x) b W Ry R').
    + subst b. apply reach_live, live_lt in Ry. lia.
Qed.
End Other.

(** two threads that are apart stay apart when a third one makes an access *)
Lemma apart_third (s s' : state) e1 e2 : (forall y b, reach s' e1 y b -> reach s e1 y b) ->
  (forall y b, reach s' e2 y b -> reach s e2 y b) -> apart s e1 e2 -> apart s' e1 e2.
Proof. intros H1 H2 [A1 A2]. split; auto. intros x y b W R1 R2. eapply A2; eauto. Qed.

(** ** The pool *)
Definition pool (es : list tenv) (s : state) : Prop :=
  (forall t e, nth_error es t = Some e -> meaningful s e /\ own s e) /\
  (forall t t' e e', t <> t' -> nth_error es t = Some e -> nth_error es t' = Some e' -> apart s e e').
Lemma pool_separated es s : pool es s <-> separated es s /\ (forall t e, nth_error es t = Some e -> meaningful s e).
Proof.
  split.
  - intros [P1 P2]. split; [split|].
    + intros t t' e e' i j o w Ht Ht' Hi Hj. destruct (Nat.eq_dec t t') as [->|ne].
      * split; auto. rewrite Ht in Ht'. injection Ht' as <-. eapply (proj1 (proj2 (P1 _ _ Ht))); eauto.
      * exfalso. eapply (proj1 (P2 _ _ _ _ ne Ht Ht')); eauto.
    + intros t t' e e' x y b Ht Ht' W R R'. destruct (Nat.eq_dec t t') as [->|ne].
      * split; auto. rewrite Ht in Ht'. injection Ht' as <-. eapply (proj2 (proj2 (P1 _ _ Ht))); eauto.
      * exfalso. eapply (proj2 (P2 _ _ _ _ ne Ht Ht')); eauto.
    + intros t e Ht. exact (proj1 (P1 t e Ht)).
  - intros [[S1 S2] M]. split.
    + intros t e Ht. split; [eauto|]. split.
      * intros i j o w Hi Hj. exact (proj2 (S1 t t e e i j o w Ht Ht Hi Hj)).
      * intros x y b W R R'. exact (proj2 (S2 t t e e x y b Ht Ht W R R')).
    + intros t t' e e' ne Ht Ht'. split.
      * intros i j o w Hi Hj. exact (ne (proj1 (S1 _ _ _ _ i j o w Ht Ht' Hi Hj))).
      * intros x y b W R R'. exact (ne (proj1 (S2 _ _ _ _ x y b Ht Ht' W R R'))).
Qed.
Lemma pool_step es s t e c a e' s' es' : pool es s -> nth_error es t = Some e -> exec c e s = ROk (a, e') s' ->
  list_put es t e' = Some es' ->
  pool es' s' /\ vexec c (view_of s e) = Some (a, view_of s' e') /\
  forall t' e2, t' <> t -> nth_error es t' = Some e2 -> view_of s' e2 = view_of s e2.
Proof.
  intros [P1 P2] Ht X Q. destruct (P1 t e Ht) as [M O].
  pose proof (exec_sim c s e M O) as Sm. unfold simulates in Sm.
  destruct (vexec c (view_of s e)) as [[a1 V]|]; [|destruct Sm as [u Sm]; congruence].
  destruct Sm as (e1 & s1 & X1 & V1 & M1 & L). rewrite X in X1. injection X1 as <- <- <-.
  assert (NQ : forall k, nth_error es' k = if Nat.eq_dec k t then Some e' else nth_error es k)
    by (intros k; exact (nth_error_list_put _ _ _ _ k Q)).
  subst V. split; [|split; [reflexivity|]]; [split|].
  - intros t1 e1. rewrite NQ. destruct (Nat.eq_dec t1 t) as [->|ne].
    + intros [= <-]. split; auto. exact (own_leaves _ _ _ _ M O L).
    + intros H1. destruct (P1 _ _ H1) as [M2 O2].
      assert (A : apart s e e1) by (apply (P2 t t1); auto).
      split; [eapply ot_meaningful; eauto|]. destruct O2 as [Oa Ob]. split; auto.
      intros x y b W Rx Ry. apply (Ob x y b); auto; eapply ot_reach; eauto.
  - intros t1 t2 e1 e2 ne. rewrite !NQ.
    destruct (Nat.eq_dec t1 t) as [->|n1], (Nat.eq_dec t2 t) as [->|n2]; intros H1 H2.
    + congruence.
    + injection H1 as <-. apply (ot_apart s s' e e' e2 L); auto; [|exact (proj1 (P1 _ _ H2))]. eapply P2; [|exact Ht|exact H2]; auto.
    + injection H2 as <-. apply (ot_apart_rev s s' e e' e1 L); auto.
      * eapply P2; [|exact Ht|exact H1]; auto.
      * apply (proj1 (P1 _ _ H1)).
      * eapply P2; [|exact H1|exact Ht]; auto.
    + apply (apart_third s s').
      * intros y b. apply (ot_reach s s' e e' e1 L); [|exact (proj1 (P1 _ _ H1))]. eapply P2; [|exact Ht|exact H1]; auto.
      * intros y b. apply (ot_reach s s' e e' e2 L); [|exact (proj1 (P1 _ _ H2))]. eapply P2; [|exact Ht|exact H2]; auto.
      * eapply P2; [|exact H1|exact H2]; auto.
  - intros t1 e1 ne H1. eapply ot_view; eauto. apply (proj1 (P1 _ _ H1)).
Qed.

(** ** Running on the view *)
Inductive vres (A : Type) : Type := VReturns (a : A) (V : view) | VThrows (x : exn) (V : view) | VUndef.
Arguments VReturns {A} a V.
Arguments VThrows {A} x V.
Arguments VUndef {A}.
Fixpoint vrun {A} (p : prog T A) (V : view) : vres A :=
  match p with
  | PRet a => VReturns a V
  | PThrow x => VThrows x V
  | PUB _ => VUndef
  | PAct c k => match vexec c V with Some (a, V') => vrun (k a) V' | None => VUndef end
  end.
Fixpoint vturns {A} (p : prog T A) (V : view) : nat :=
  match p with
  | PAct c k => match vexec c V with Some (a, V') => S (vturns (k a) V') | None => 0 end
  | _ => 0
  end.
Definition vres_of {A} (r : sres T A) : vres A :=
  match r with
  | Returns a e s => VReturns a (view_of s e)
  | Throws x e s => VThrows x (view_of s e)
  | Undefined _ => VUndef
  end.
Lemma alone_vrun {A} (p : prog T A) : forall e s, meaningful s e -> own s e ->
  vres_of (alone p e s) = vrun p (view_of s e) /\ turns p e s = vturns p (view_of s e).
Proof.
  induction p as [a|x|u|c k IH]; intros e s M O; simpl; auto.
  pose proof (exec_sim c s e M O) as Sm. unfold simulates in Sm.
  destruct (vexec c (view_of s e)) as [[a V]|].
  - destruct Sm as (e' & s' & X & V1 & M1 & L). rewrite X. subst V.
    destruct (IH a e' s' M1 (own_leaves _ _ _ _ M O L)) as [E1 E2]. auto.
  - destruct Sm as [u ->]. auto.
Qed.

(** ** Running together *)
Lemma list_put_map {A B} (f : A -> B) (l : list A) : forall i x l', list_put l i x = Some l' ->
  list_put (map f l) i (f x) = Some (map f l').
Proof.
  induction l as [|a l IH]; intros [|i] x l'; simpl; try discriminate.
  - intros [= <-]. reflexivity.
  - destruct (list_put l i x) as [l1|] eqn:E; [|discriminate]. intros [= <-]. now rewrite (IH _ _ _ E).
Qed.
Definition good {A} (g : config T A) : Prop :=
  pool (map snd (threads g)) (shared g) /\
  forall t p e, nth_error (threads g) t = Some (p, e) -> vrun p (view_of (shared g) e) <> VUndef.
(** what a thread still has to do, the same before and after accesses of others *)
Definition follows {A} (order : list nat) (g g' : config T A) : Prop :=
  length (threads g') = length (threads g) /\
  forall t p e, nth_error (threads g) t = Some (p, e) -> exists p' e',
    nth_error (threads g') t = Some (p', e') /\
    vrun p' (view_of (shared g') e') = vrun p (view_of (shared g) e) /\
    vturns p' (view_of (shared g') e') = vturns p (view_of (shared g) e) - count_occ Nat.eq_dec order t /\
    exists l, names e' = names e ++ l.
Lemma tick_good {A} (g : config T A) t : good g -> exists g', tick t g = Some g' /\ good g' /\ follows [t] g g'.
Proof.
  intros [P D]. unfold tick.
  assert (Id : (forall c k e, nth_error (threads g) t <> Some (PAct c k, e)) -> follows [t] g g).
  { intros H. split; auto. intros t1 p e H1. exists p, e. repeat split; auto.
    - simpl. destruct (Nat.eq_dec t t1) as [->|]; [|lia]. destruct p; simpl; auto. exfalso; eapply H; eauto.
    - exists []. now rewrite app_nil_r. }
  destruct (nth_error (threads g) t) as [[p e]|] eqn:Ht.
  2: { exists g. split; [reflexivity|]. split; [split; auto|]. apply Id. congruence. }
  destruct p as [a|x|u|c k].
  - exists g. split; [reflexivity|]. split; [split; auto|]. apply Id. congruence.
  - exists g. split; [reflexivity|]. split; [split; auto|]. apply Id. congruence.
  - exfalso. apply (D t _ e Ht). reflexivity.
  - clear Id. assert (Hm : nth_error (map snd (threads g)) t = Some e) by (rewrite nth_error_map, Ht; reflexivity).
    destruct (proj1 P t e Hm) as [M O].
    pose proof (exec_sim c (shared g) e M O) as Sm. unfold simulates in Sm.
    pose proof (D t _ e Ht) as Dt. simpl in Dt.
    destruct (vexec c (view_of (shared g) e)) as [[a V]|] eqn:Vx; [|contradiction].
    destruct Sm as (e' & s' & X & V1 & M1 & L). rewrite X. subst V.
    destruct (list_put_Some (threads g) t (k a, e')) as [ts Q]; [eapply nth_error_lt; eauto|].
    rewrite Q. exists (Config ts s'). split; [reflexivity|].
    assert (Qm := list_put_map snd _ _ _ _ Q). cbn [snd] in Qm.
    destruct (pool_step _ _ _ _ _ _ _ _ _ P Hm X Qm) as (P' & _ & Vo).
    assert (NQ : forall j, nth_error ts j = if Nat.eq_dec j t then Some (k a, e') else nth_error (threads g) j)
      by (intros j; exact (nth_error_list_put _ _ _ _ j Q)).
    assert (Vo' : forall t1 p1 e1, t1 <> t -> nth_error (threads g) t1 = Some (p1, e1) -> view_of s' e1 = view_of (shared g) e1).
    { intros t1 p1 e1 ne H1. apply (Vo t1); auto. rewrite nth_error_map, H1. reflexivity. }
    split; [split; auto|split].
    + intros t1 p1 e1. cbn [threads shared]. rewrite NQ. destruct (Nat.eq_dec t1 t) as [->|ne].
      * intros [= <- <-]. exact Dt.
      * intros H1. rewrite (Vo' t1 p1 e1 ne H1). eauto.
    + exact (list_put_length _ _ _ _ Q).
    + intros t1 p1 e1 H1. cbn [threads shared]. rewrite NQ. simpl.
      destruct (Nat.eq_dec t t1) as [E1|n1], (Nat.eq_dec t1 t) as [E2|n2]; try congruence.
      * subst t1. rewrite Ht in H1. injection H1 as <- <-. exists (k a), e'. split; [reflexivity|].
        simpl. rewrite Vx. split; [reflexivity|]. split; [lia|].
        destruct (lv_names _ _ _ _ L) as [->| ->]; [exists []; now rewrite app_nil_r|eauto].
      * exists p1, e1. rewrite (Vo' t1 p1 e1 n2 H1). repeat split; auto; [lia|]. exists []; now rewrite app_nil_r.
Qed.
Lemma together_good {A} order : forall g : config T A, good g ->
  exists g', together order g = Some g' /\ good g' /\ follows order g g'.
Proof.
  induction order as [|t r IH]; intros g G; simpl.
  - exists g. split; [reflexivity|]. split; auto. split; auto. intros t p e H. exists p, e. repeat split; auto.
    + simpl; lia. + exists []; now rewrite app_nil_r.
  - destruct (tick_good g t G) as (g1 & -> & G1 & [L1 F1]).
    destruct (IH g1 G1) as (g' & -> & G' & [L2 F2]). exists g'. split; [reflexivity|]. split; auto.
    split; [congruence|]. intros t1 p e H.
    destruct (F1 t1 p e H) as (p1 & e1 & H1 & A1 & B1 & l1 & C1).
    destruct (F2 t1 p1 e1 H1) as (p2 & e2 & H2 & A2 & B2 & l2 & C2).
    exists p2, e2. split; auto. split; [congruence|]. split.
    + rewrite B2, B1. simpl. destruct (Nat.eq_dec t t1); simpl; lia.
    + exists (l1 ++ l2). rewrite C2, C1. now rewrite app_assoc.
Qed.
Lemma good_of {A} (g : config T A) : separated (map snd (threads g)) (shared g) ->
  (forall t p e, nth_error (threads g) t = Some (p, e) ->
     meaningful (shared g) e /\ well_defined (alone p e (shared g))) -> good g.
Proof.
  intros S H.
  assert (P : pool (map snd (threads g)) (shared g)).
  { apply pool_separated. split; auto. intros t e Ht. rewrite nth_error_map in Ht.
    destruct (nth_error (threads g) t) as [[p e1]|] eqn:E; [|discriminate]. injection Ht as <-.
    exact (proj1 (H t p e1 E)). }
  split; auto. intros t p e Ht Hv. destruct (H t p e Ht) as [M D].
  assert (O : own (shared g) e). { apply (proj1 P t e). rewrite nth_error_map, Ht. reflexivity. }
  destruct (alone_vrun p e (shared g) M O) as [E _]. rewrite Hv in E.
  destruct (alone p e (shared g)); try discriminate. exact D.
Qed.

(** ** What views tell about contents *)
Fixpoint cells_from (cs : list cell) (off n : nat) : option (list cell) :=
  match n with
  | O => Some []
  | S n' => match nth_error cs off, cells_from cs (S off) n' with
            | Some c, Some l => Some (c :: l)
            | _, _ => None
            end
  end.
Definition ov_contents (x : oview) : option (list cell) :=
  match x with
  | VLive _ n SNull => match n with O => Some [] | _ => None end
  | VLive _ n (SLive off cs) => cells_from cs off n
  | VLive _ n SGone => match n with O => Some [] | _ => None end
  | VDead => None
  end.
Lemma contents_view (s : state) o : contents s o = ov_contents (ov_of s o).
Proof.
  unfold contents, ov_of. destruct (nth_error (objs s) o) as [[v|]|]; auto. simpl.
  destruct (oaddr v) as [[b off]|]; auto. simpl.
  destruct (nth_error (blocks s) b) as [[cs|]|] eqn:B; simpl.
  - revert off. induction (olen v) as [|n IH]; intros off; simpl; auto.
    unfold cellat, get_block. rewrite B. now rewrite IH.
  - destruct (olen v); auto. simpl. unfold cellat, get_block. now rewrite B.
  - destruct (olen v); auto. simpl. unfold cellat, get_block. now rewrite B.
Qed.
Lemma view_same_vectors s e s' e' : view_of s e = view_of s' e' -> same_vectors e s e' s'.
Proof.
  intros H. assert (H1 : vn (view_of s e) = vn (view_of s' e')) by now rewrite H. simpl in H1. split.
  - apply (f_equal (@length _)) in H1. now rewrite !map_length in H1.
  - intros i o w N. apply (f_equal (fun l => nth_error l i)) in H1. rewrite !nth_error_map, N in H1. simpl in H1.
    destruct (nth_error (names e') i) as [[o' w']|]; [|discriminate]. simpl in H1. injection H1 as H1 <-.
    exists o'. split; auto. rewrite !contents_view. congruence.
Qed.

(** ** Accesses that can collide *)
Lemma touch_any (s : state) e c l wr : touches s e c l wr ->
  (exists i o w, nth_error (names e) i = Some (o, w) /\ l = LMembers o) \/
  (exists x b k, reach s e x b /\ l = LElement b k).
Proof.
  destruct c; simpl; try tauto.
  - intros (o & w & N & -> & _). left; eauto.
  - intros (o & w & N & _ & [->|(v & b & off & B & A & L & ->)]); [left; eauto|].
    right. exists (SName i), b, (off + k). split; auto. exists o, w, v, off; auto.
  - intros (o & w & N & [[-> _]|(v & b & off & B & A & L & -> & _)]); [left; eauto|].
    right. exists (SName i), b, (off + k). split; auto. exists o, w, v, off; auto.
  - intros (b & N & L & -> & _). right. exists (SBlock h), b, k. split; auto. split; auto.
  - intros (o & w & N & [[-> _]|(v & b & off & k & B & A & L & -> & _)]); [left; eauto|].
    right. exists (SName i), b, k. split; auto. exists o, w, v, off; auto.
  - intros (o & w & N & -> & _). left; eauto.
  - intros (o & w & [N|N] & -> & _); left; eauto.
  - intros (o & w & N & -> & _). left; eauto.
Qed.
Lemma touch_write (s : state) e c l : vexec c (view_of s e) <> None -> touches s e c l true ->
  (exists i o, nth_error (names e) i = Some (o, true) /\ l = LMembers o) \/
  (exists x b k, may_write e x /\ reach s e x b /\ l = LElement b k).
Proof.
  intros D. destruct c; simpl; try tauto.
  - intros (o & w & N & _ & X). discriminate.
  - intros (o & w & N & X & _). discriminate.
  - intros (o & w & N & [[_ X]|(v & b & off & B & A & L & -> & _)]); [discriminate|].
    assert (w = true) as ->.
    { cbn [vexec] in D. rewrite (view_name s e i o w N) in D. unfold ov_of, st_of in D. rewrite B, A in D.
      destruct (nth_error (blocks s) b) as [[cs|]|]; destruct w; auto; contradiction. }
    right. exists (SName i), b, (off + k). repeat split; [simpl; eauto|]. exists o, true, v, off; auto.
  - intros (b & N & L & -> & _). right. exists (SBlock h), b, k. repeat split; auto.
  - intros (o & w & N & [[_ X]|(v & b & off & k & B & A & L & -> & _)]); [discriminate|].
    assert (w = true) as ->.
    { cbn [vexec] in D. rewrite (view_name s e i o w N) in D. unfold ov_of, st_of in D. rewrite B, A in D.
      destruct (nth_error (blocks s) b) as [[cs|]|]; destruct w; auto; contradiction. }
    right. exists (SName i), b, k. repeat split; [simpl; eauto|]. exists o, true, v, off; auto.
  - intros (o & w & N & -> & _). left. exists i, o. split; auto.
    cbn [vexec] in D. rewrite (view_name s e i o w N) in D. destruct (ov_of s o), w; auto; contradiction.
  - cbn [vexec] in D. intros (o & w & [N|N] & -> & _); left.
    + exists i, o. split; auto. rewrite (view_name s e i o w N) in D. destruct (ov_of s o), w; auto; contradiction.
    + exists j, o. split; auto. rewrite (view_name s e j o w N) in D.
      destruct (nth_error (vn (view_of s e)) i) as [[[|] []]|]; destruct (ov_of s o), w; auto; contradiction.
  - intros (o & w & N & -> & _). left. exists i, o. split; auto.
    cbn [vexec] in D. rewrite (view_name s e i o w N) in D. destruct (ov_of s o), w; auto; contradiction.
Qed.
Lemma no_race {A} (g : config T A) t t' c k c' k' e e' l wr wr' : good g -> t <> t' ->
  nth_error (threads g) t = Some (PAct c k, e) -> nth_error (threads g) t' = Some (PAct c' k', e') ->
  touches (shared g) e c l wr -> touches (shared g) e' c' l wr' -> wr = false.
Proof.
  intros [[_ P] D] ne Ht Ht' X X'. destruct wr; auto. exfalso.
  assert (Ap : apart (shared g) e e').
  { apply (P t t'); auto; rewrite nth_error_map; [rewrite Ht|rewrite Ht']; reflexivity. }
  apply touch_write in X.
  2: { specialize (D t _ e Ht). simpl in D. intros E. apply D. now rewrite E. }
  apply touch_any in X'.
  destruct X as [(i & o & N & ->)|(x & b & kk & W & R & ->)], X' as [(j & o' & w & N' & E)|(y & b' & k2 & R' & E)]; try discriminate.
  - injection E as <-. exact (proj1 Ap i j o w N N').
  - injection E as <- <-. exact (proj2 Ap x y b W R R').
Qed.

(** ** A vector that nobody may write: as if a thread that has ended knew it *)
Definition watcher {A} (o : nat) : prog T A * tenv := (PThrow EBadAlloc, TE [(o, false)] [] []).
Definition watched {A} (o : nat) (g : config T A) : config T A := Config (threads g ++ [watcher o]) (shared g).
Lemma list_put_app {A} (l r : list A) : forall i x l', list_put l i x = Some l' -> list_put (l ++ r) i x = Some (l' ++ r).
Proof.
  induction l as [|a l IH]; intros [|i] x l'; simpl; try discriminate.
  - intros [= <-]. reflexivity.
  - destruct (list_put l i x) as [l1|] eqn:E; [|discriminate]. intros [= <-]. now rewrite (IH _ _ _ E).
Qed.
Lemma tick_watched {A} o (g g' : config T A) t : tick t g = Some g' -> tick t (watched o g) = Some (watched o g').
Proof.
  unfold tick, watched. cbn [threads shared]. rewrite nth_error_snoc.
  destruct (Nat.eq_dec t (length (threads g))) as [->|ne].
  - assert (E : nth_error (threads g) (length (threads g)) = None) by (apply nth_error_None; lia).
    rewrite E. intros [= <-]. reflexivity.
  - destruct (nth_error (threads g) t) as [[p e]|] eqn:Ht; [|intros [= <-]; reflexivity].
    destruct p as [a|x|u|c k]; try (intros [= <-]; reflexivity).
    destruct (exec c e (shared g)) as [[a e'] s'| |]; try discriminate.
    destruct (list_put (threads g) t (k a, e')) as [ts|] eqn:Q; [|discriminate].
    intros [= <-]. rewrite (list_put_app _ [watcher o] _ _ _ Q). reflexivity.
Qed.
Lemma together_watched {A} o order : forall g g' : config T A, together order g = Some g' ->
  together order (watched o g) = Some (watched o g').
Proof.
  induction order as [|t r IH]; simpl; intros g g'.
  - intros [= <-]. reflexivity.
  - destruct (tick t g) as [g1|] eqn:E; [|discriminate]. intros H.
    rewrite (tick_watched o g g1 t E). auto.
Qed.
Lemma good_watched {A} o (g : config T A) : good g -> untouchable (map snd (threads g)) (shared g) o -> good (watched o g).
Proof.
  intros [[P1 P2] D] (U1 & U2 & U3). unfold watched. split; [split|]; cbn [threads shared].
  - intros t e. rewrite map_app. cbn [map]. rewrite nth_error_snoc. destruct (Nat.eq_dec t _); [|apply P1].
    intros [= <-]. split; [split; [|split]|split]; simpl.
    + intros [|[|i]] o' w; simpl; try discriminate. intros [= <- <-]. exact U1.
    + intros [|[|i]] o' w v b off; simpl; try discriminate. intros [= <- <-] Ob Ad. exact (proj1 (U3 v b off Ob Ad)).
    + intros [|h] b; discriminate.
    + intros [|[|i]] j o' w; simpl; discriminate.
    + intros [[|[|i]]|[|h]] y b; simpl; try (intros [? ?]; discriminate); intros _ [? _]; discriminate.
  - intros t t' e e' ne. rewrite map_app. cbn [map]. rewrite !nth_error_snoc.
    destruct (Nat.eq_dec t _) as [E|n1], (Nat.eq_dec t' _) as [E'|n2]; intros H1 H2.
    + congruence.
    + injection H1 as <-. split.
      * intros [|[|i]] j o' w; simpl; discriminate.
      * intros [[|[|i]]|[|h]] y b; simpl; try (intros [? ?]; discriminate); intros _ [? _]; discriminate.
    + injection H2 as <-. split.
      * intros i [|[|j]] o' w Hi; simpl; try discriminate. intros [= <- <-]. exact (U2 t e i H1 Hi).
      * intros x [[|[|j]]|[|h]] b W R; simpl; try (intros [? _]; discriminate); try (intros (? & ? & ? & ? & ? & _); discriminate).
        intros (o' & w & v & off & N & Ob & Ad & L). injection N as <- <-.
        exact (proj2 (U3 v b off Ob Ad) t e x H1 W R).
    + eapply P2; [exact ne| |]; eauto.
  - intros t p e. rewrite nth_error_snoc. destruct (Nat.eq_dec t _); [|apply D].
    intros [= <- <-]. discriminate.
Qed.
Lemma untouched {A} o order (g g' : config T A) : good g -> untouchable (map snd (threads g)) (shared g) o ->
  together order g = Some g' -> contents (shared g') o = contents (shared g) o.
Proof.
  intros G U H. destruct (together_good order _ (good_watched o g G U)) as (g1 & H1 & G1 & [_ F]).
  rewrite (together_watched o order g g' H) in H1. injection H1 as <-.
  destruct (F (length (threads g)) (PThrow EBadAlloc) (TE [(o, false)] [] [])) as (p' & e' & N & V & _).
  { cbn [threads watched]. rewrite nth_error_snoc. now destruct (Nat.eq_dec _ _). }
  assert (L : length (threads g') = length (threads g)).
  { destruct (together_good order g G) as (g2 & H2 & _ & [L _]). rewrite H in H2. injection H2 as <-. exact L. }
  cbn [threads watched] in N. rewrite nth_error_snoc in N. rewrite L in N.
  destruct (Nat.eq_dec (length (threads g)) (length (threads g))) as [_|X]; [|now contradiction X].
  injection N as <- <-. cbn [vrun shared watched] in V. injection V as V. rewrite !contents_view. now rewrite V.
Qed.
End Proofs.
