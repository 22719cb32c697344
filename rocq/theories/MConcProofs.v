(** Threads that use matrices: the accesses of one thread seen from that thread and from
    the others, on top of ConcProofs.v. *)
From Coq Require Import List ZArith Bool Arith Lia.
From Verif Require Import Base BaseFacts HeapModel HeapSpec MatModel MHeapModel MHeapSpec.
From Verif Require Import ConcModel ConcSpec ConcProofs ConcRefine MConcModel MConcSpec.
Import ListNotations.

Section MProofs.
Context {T : Type}.
Notation mstate := (mstate T).
Notation cell := (cell T).

(** ** What a thread sees: no addresses *)
Record mview : Type := MV { mv : @view T; mds : list (option dim) }.
Definition mview_of (s : mstate) (e : tenv) : mview :=
  MV (view_of (heap s) e) (map (fun p => nth_error (dims s) (fst p)) (names e)).
Definition mvexec (c : mcmd T) (V : mview) : option (mans c * mview) :=
  match c with
  | MMem CNew => None
  | MMem c => match vexec c (mv V) with Some (a, V') => Some (a, MV V' (mds V)) | None => None end
  | MDims i => match nth_error (mds V) i with Some (Some d) => Some (d, V) | _ => None end
  | MSetDims i r c =>
      match nth_error (vn (mv V)) i, nth_error (mds V) i with
      | Some (_, true), Some (Some d) =>
          match list_put (mds V) i (Some (Dim r c (dlay d))) with
          | Some l => Some (tt, MV (mv V) l)
          | None => None
          end
      | _, _ => None
      end
  | MNew l => match vexec CNew (mv V) with
              | Some (a, V') => Some (a, MV V' (mds V ++ [Some (Dim 0 0 l)]))
              | None => None
              end
  end.

(** every matrix has its dimensions *)
Definition wf (s : mstate) : Prop := length (dims s) = length (objs (heap s)).

Lemma exec_names c e (s : state T) a e' s' : c <> CNew -> exec c e s = ROk (a, e') s' ->
  names e' = names e /\ length (objs s') = length (objs s).
Proof.
  intros ne X.
  assert (D : (exists i, c = CEnd i) \/ match c with CNew | CEnd _ => False | _ => True end)
    by (destruct c; eauto; contradiction).
  destruct D as [[i ->]|D].
  - cbn [exec] in X. unfold bindM, writable, get_obj, set_obj, ret in X.
    destruct (nth_error (names e) i) as [[o [|]]|]; try discriminate.
    destruct (nth_error (objs s) o) as [[v|]|]; try discriminate.
    destruct (list_put (objs s) o None) as [os|] eqn:P; [|discriminate]. injection X as _ <- <-.
    split; auto. exact (list_put_length _ _ _ _ P).
  - destruct (plain_exec _ _ _ _ _ _ D X) as [E P]. split; auto.
    apply (f_equal (@length _)) in P. unfold present in P. now rewrite !map_length in P.
Qed.

(** an access is one of ConcModel.v, or changes dimensions only *)
Lemma mexec_heap c e (s : mstate) a e' s' : wf s -> mexec c e s = NOk (a, e') s' ->
  ((exists c0 a0, exec c0 e (heap s) = ROk (a0, e') (heap s')) \/ (e' = e /\ heap s' = heap s)) /\ wf s' /\
  (forall o, o < length (dims s) ->
     (exists i, nth_error (names e) i = Some (o, true)) \/ nth_error (dims s') o = nth_error (dims s) o).
Proof.
  intros W X. unfold wf in *. destruct c as [c|i|i r c|l].
  - assert (ne : c <> CNew) by (intros ->; discriminate X).
    assert (X' : @lift T _ (exec c e) s = NOk (a, e') s') by (destruct c; auto; discriminate X).
    unfold lift in X'. destruct (exec c e (heap s)) as [[a1 e1] h| |] eqn:E; try discriminate.
    injection X' as <- <- <-. cbn [heap dims]. split; [left; eauto|].
    destruct (exec_names _ _ _ _ _ _ ne E) as [_ L]. split; [congruence|auto].
  - cbn [mexec] in X. unfold bindN, lift, named, get_dim, retN in X. destruct s as [h ds]. cbn [heap dims] in *.
    destruct (nth_error (names e) i) as [[o w]|]; [|discriminate]. cbn [dims] in X.
    destruct (nth_error ds o); [|discriminate]. injection X as _ <- <-. auto.
  - cbn [mexec] in X. unfold bindN, lift, writable, set_dim, retN in X. destruct s as [h ds]. cbn [heap dims] in *.
    destruct (nth_error (names e) i) as [[o [|]]|] eqn:N; try discriminate. cbn [dims heap] in X.
    destruct (nth_error ds o) as [d|]; [|discriminate]. destruct (list_put ds o _) as [ds'|] eqn:P; [|discriminate].
    injection X as <- <- <-. cbn [heap dims]. split; auto. rewrite (list_put_length _ _ _ _ P). split; auto.
    intros o' L. rewrite (nth_error_list_put _ _ _ _ o' P). destruct (Nat.eq_dec o' o) as [->|]; eauto.
  - cbn [mexec] in X. unfold bindN, h_default, retN in X. injection X as <- <- <-. cbn [heap dims].
    split; [left; exists CNew, (length (names e)); reflexivity|]. split.
    + cbn [objs]. rewrite !app_length. simpl. lia.
    + intros o L. right. now rewrite nth_error_app1.
Qed.

Lemma map_dims_other (s s' : mstate) e : (forall i o w, nth_error (names e) i = Some (o, w) -> nth_error (dims s') o = nth_error (dims s) o) ->
  map (fun p : nat * bool => nth_error (dims s') (fst p)) (names e) = map (fun p => nth_error (dims s) (fst p)) (names e).
Proof.
  intros H. apply map_ext_in. intros [o w] I. apply In_nth_error in I. destruct I as [i I]. exact (H i o w I).
Qed.

Lemma classic_new (c : cmd T) : c = CNew \/ c <> CNew.
Proof. destruct c; auto; right; discriminate. Qed.
Definition msimulates (c : mcmd T) (s : mstate) (e : tenv) : Prop :=
  match mvexec c (mview_of s e) with
  | Some (a, V') => exists e' s', mexec c e s = NOk (a, e') s' /\ mview_of s' e' = V' /\ meaningful (heap s') e' /\
                    own (heap s') e' /\ wf s' /\ exists l, names e' = names e ++ l
  | None => exists u, mexec c e s = NUB u
  end.
Lemma mexec_sim c s e : wf s -> meaningful (heap s) e -> own (heap s) e -> msimulates c s e.
Proof.
  intros W M O. unfold msimulates. destruct c as [c|i|i r c|l].
  - destruct (classic_new c) as [->|ne].
    + cbn [mvexec mexec]. unfold ubN. eauto.
    + assert (E1 : mexec (MMem c) e s = lift (exec c e) s) by (destruct c; auto; contradiction).
      assert (E2 : mvexec (MMem c) (mview_of s e) = match vexec c (view_of (heap s) e) with Some (a, V') => Some (a, MV V' (mds (mview_of s e))) | None => None end)
        by (destruct c; auto; contradiction).
      rewrite E2. rewrite E1. clear E1 E2. unfold lift.
      pose proof (exec_sim c (heap s) e M O) as Sm. unfold simulates in Sm.
      destruct (vexec c (view_of (heap s) e)) as [[a V]|].
      * destruct Sm as (e' & h & X & <- & M' & L). rewrite X. exists e', (MSt h (dims s)). split; [reflexivity|].
        destruct (exec_names _ _ _ _ _ _ ne X) as [N Ln]. unfold mview_of. cbn [heap dims mds]. rewrite N.
        split; [reflexivity|]. split; auto. split; [exact (own_leaves _ _ _ _ M O L)|].
        split; [unfold wf in *; cbn [heap dims]; congruence|]. exists []. now rewrite app_nil_r.
      * destruct Sm as [u ->]. eauto.
  - cbn [mvexec mexec mview_of mds]. unfold bindN, lift, named, get_dim, retN. rewrite nth_error_map.
    destruct (nth_error (names e) i) as [[o w]|] eqn:N; cbn [option_map fst]; eauto. cbn [dims heap].
    destruct (nth_error (dims s) o) as [d|]; eauto. exists e, s. destruct s. repeat split; auto.
    + apply M. + apply M. + apply M. + apply O. + apply O. + exists []. now rewrite app_nil_r.
  - cbn [mvexec mexec mview_of mds mv]. unfold bindN, lift, writable, set_dim, retN. rewrite nth_error_map.
    destruct (nth_error (names e) i) as [[o w]|] eqn:N.
    2: { cbn [option_map]. rewrite (view_no_name _ _ _ N). eauto. }
    rewrite (view_name (heap s) e i o w N). cbn [option_map fst]. destruct w; eauto. cbn [dims heap].
    destruct (nth_error (dims s) o) as [d|] eqn:D; eauto.
    destruct (list_put_Some (dims s) o (Dim r c (dlay d))) as [ds P]; [eapply nth_error_lt; eauto|]. rewrite P.
    destruct (list_put_Some (map (fun p : nat * bool => nth_error (dims s) (fst p)) (names e)) i (Some (Dim r c (dlay d)))) as [l Pl].
    { rewrite map_length. eapply nth_error_lt; eauto. }
    rewrite Pl. eexists e, _. split; [reflexivity|]. unfold mview_of. cbn [heap dims].
    split; [|repeat split; try apply M; try apply O; [unfold wf in *; cbn [heap dims]; rewrite (list_put_length _ _ _ _ P); auto|exists []; now rewrite app_nil_r]].
    f_equal. apply nth_error_ext. intros j. rewrite (nth_error_list_put _ _ _ _ j Pl), nth_error_map.
    destruct (Nat.eq_dec j i) as [->|ne].
    + rewrite N. cbn [option_map fst]. rewrite (nth_error_list_put _ _ _ _ o P). now destruct (Nat.eq_dec o o).
    + rewrite nth_error_map. destruct (nth_error (names e) j) as [[o' w']|] eqn:Nj; auto. cbn [option_map fst].
      rewrite (nth_error_list_put _ _ _ _ o' P). destruct (Nat.eq_dec o' o) as [->|]; auto.
      exfalso. apply ne. symmetry. exact (proj1 O i j o w' N Nj).
  - cbn [mvexec mexec mview_of mds mv]. pose proof (exec_sim CNew (heap s) e M O) as Sm. unfold simulates in Sm.
    cbn [vexec] in *. destruct Sm as (e' & h & X & V & M' & L).
    unfold bindN, h_default, retN. cbn [exec] in X. unfold bindM, new_obj, ret in X. injection X as Xa <- <-.
    eexists _, _. split; [cbn [view_of vn]; rewrite map_length; reflexivity|]. unfold mview_of. cbn [heap dims].
    split; [|repeat split; try apply M'; try apply (own_leaves _ _ _ _ M O L)].
    + rewrite <- V. f_equal. cbn [names]. rewrite map_app. cbn [map fst]. f_equal.
      * apply map_ext_in. intros [o w] I. apply In_nth_error in I. destruct I as [i I].
        rewrite nth_error_app1; auto. cbn [fst]. rewrite W. exact (proj1 M i o w I).
      * rewrite <- W, nth_error_app2, Nat.sub_diag; auto.
    + unfold wf in *. cbn [heap dims objs]. rewrite !app_length. simpl. lia.
    + cbn [names]. eauto.
Qed.

(** ** The pool *)
Definition mpool (es : list tenv) (s : mstate) : Prop := pool es (heap s) /\ wf s.
Lemma list_put_self {A} (l : list A) : forall i x l', nth_error l i = Some x -> list_put l i x = Some l' -> l' = l.
Proof.
  intros i x l' H P. apply nth_error_ext. intros j. rewrite (nth_error_list_put _ _ _ _ j P).
  destruct (Nat.eq_dec j i) as [->|]; auto.
Qed.
Lemma mpool_step es s t e c a e' s' es' : mpool es s -> nth_error es t = Some e -> mexec c e s = NOk (a, e') s' ->
  list_put es t e' = Some es' ->
  mpool es' s' /\ forall t' e2, t' <> t -> nth_error es t' = Some e2 -> mview_of s' e2 = mview_of s e2.
Proof.
  intros [P W] Ht X Q. destruct (mexec_heap _ _ _ _ _ _ W X) as (H & W' & D).
  assert (B : pool es' (heap s') /\ forall t' e2, t' <> t -> nth_error es t' = Some e2 -> view_of (heap s') e2 = view_of (heap s) e2).
  { destruct H as [(c0 & a0 & X0)|[-> E]].
    - destruct (pool_step _ _ _ _ _ _ _ _ _ P Ht X0 Q) as (P' & _ & V). auto.
    - rewrite E. rewrite (list_put_self _ _ _ _ Ht Q). auto. }
  destruct B as [P' V]. split; [split; auto|]. intros t' e2 ne H2. unfold mview_of. f_equal; [eauto|].
  apply map_dims_other. intros i o w N. destruct P as [P1 P2].
  destruct (D o) as [[j Nj]|]; auto.
  - rewrite W. exact (proj1 (proj1 (P1 _ _ H2)) i o w N).
  - exfalso. exact (proj1 (P2 t t' e e2 (not_eq_sym ne) Ht H2) j i o w Nj N).
Qed.

(** ** Running on the view *)
Inductive mvres (A : Type) : Type := MVReturns (a : A) (V : mview) | MVThrows (x : exn) (V : mview) | MVUndef.
Arguments MVReturns {A} a V.
Arguments MVThrows {A} x V.
Arguments MVUndef {A}.
Fixpoint mvrun {A} (p : mprog T A) (V : mview) : mvres A :=
  match p with
  | QRet a => MVReturns a V
  | QThrow x => MVThrows x V
  | QUB _ => MVUndef
  | QAct c k => match mvexec c V with Some (a, V') => mvrun (k a) V' | None => MVUndef end
  end.
Fixpoint mvturns {A} (p : mprog T A) (V : mview) : nat :=
  match p with
  | QAct c k => match mvexec c V with Some (a, V') => S (mvturns (k a) V') | None => 0 end
  | _ => 0
  end.
Definition mvres_of {A} (r : mres T A) : mvres A :=
  match r with
  | MReturns a e s => MVReturns a (mview_of s e)
  | MThrows x e s => MVThrows x (mview_of s e)
  | MUndefined _ => MVUndef
  end.
Lemma malone_vrun {A} (p : mprog T A) : forall e s, wf s -> meaningful (heap s) e -> own (heap s) e ->
  mvres_of (malone p e s) = mvrun p (mview_of s e) /\ mturns p e s = mvturns p (mview_of s e).
Proof.
  induction p as [a|x|u|c k IH]; intros e s W M O; simpl; auto.
  pose proof (mexec_sim c s e W M O) as Sm. unfold msimulates in Sm.
  destruct (mvexec c (mview_of s e)) as [[a V]|].
  - destruct Sm as (e' & s' & X & V1 & M1 & O1 & W1 & _). rewrite X. subst V.
    destruct (IH a e' s' W1 M1 O1) as [E1 E2]. auto.
  - destruct Sm as [u ->]. auto.
Qed.

(** ** Running together *)
Definition mgood {A} (g : mconfig T A) : Prop :=
  mpool (map snd (mthreads g)) (mshared g) /\
  forall t p e, nth_error (mthreads g) t = Some (p, e) -> mvrun p (mview_of (mshared g) e) <> MVUndef.
Definition mfollows {A} (order : list nat) (g g' : mconfig T A) : Prop :=
  length (mthreads g') = length (mthreads g) /\
  forall t p e, nth_error (mthreads g) t = Some (p, e) -> exists p' e',
    nth_error (mthreads g') t = Some (p', e') /\
    mvrun p' (mview_of (mshared g') e') = mvrun p (mview_of (mshared g) e) /\
    mvturns p' (mview_of (mshared g') e') = mvturns p (mview_of (mshared g) e) - count_occ Nat.eq_dec order t /\
    exists l, names e' = names e ++ l.
Lemma mtick_good {A} (g : mconfig T A) t : mgood g -> exists g', mtick t g = Some g' /\ mgood g' /\ mfollows [t] g g'.
Proof.
  intros [P D]. unfold mtick.
  assert (Id : (forall c k e, nth_error (mthreads g) t <> Some (QAct c k, e)) -> mfollows [t] g g).
  { intros H. split; auto. intros t1 p e H1. exists p, e. repeat split; auto.
    - simpl. destruct (Nat.eq_dec t t1) as [->|]; [|lia]. destruct p; simpl; auto. exfalso; eapply H; eauto.
    - exists []. now rewrite app_nil_r. }
  destruct (nth_error (mthreads g) t) as [[p e]|] eqn:Ht.
  2: { exists g. split; [reflexivity|]. split; [split; auto|]. apply Id. congruence. }
  destruct p as [a|x|u|c k].
  - exists g. split; [reflexivity|]. split; [split; auto|]. apply Id. congruence.
  - exists g. split; [reflexivity|]. split; [split; auto|]. apply Id. congruence.
  - exfalso. apply (D t _ e Ht). reflexivity.
  - clear Id. assert (Hm : nth_error (map snd (mthreads g)) t = Some e) by (rewrite nth_error_map, Ht; reflexivity).
    destruct (proj1 (proj1 P) t e Hm) as [M O].
    pose proof (mexec_sim c (mshared g) e (proj2 P) M O) as Sm. unfold msimulates in Sm.
    pose proof (D t _ e Ht) as Dt. simpl in Dt.
    destruct (mvexec c (mview_of (mshared g) e)) as [[a V]|] eqn:Vx; [|contradiction].
    destruct Sm as (e' & s' & X & V1 & M1 & O1 & W1 & Nm). rewrite X. subst V.
    destruct (list_put_Some (mthreads g) t (k a, e')) as [ts Q]; [eapply nth_error_lt; eauto|].
    rewrite Q. exists (MConfig ts s'). split; [reflexivity|].
    assert (Qm := list_put_map snd _ _ _ _ Q). cbn [snd] in Qm.
    destruct (mpool_step _ _ _ _ _ _ _ _ _ P Hm X Qm) as (P' & Vo).
    assert (NQ : forall j, nth_error ts j = if Nat.eq_dec j t then Some (k a, e') else nth_error (mthreads g) j)
      by (intros j; exact (nth_error_list_put _ _ _ _ j Q)).
    assert (Vo' : forall t1 p1 e1, t1 <> t -> nth_error (mthreads g) t1 = Some (p1, e1) -> mview_of s' e1 = mview_of (mshared g) e1).
    { intros t1 p1 e1 ne H1. apply (Vo t1); auto. rewrite nth_error_map, H1. reflexivity. }
    split; [split; auto|split].
    + intros t1 p1 e1. cbn [mthreads mshared]. rewrite NQ. destruct (Nat.eq_dec t1 t) as [->|ne].
      * intros [= <- <-]. exact Dt.
      * intros H1. rewrite (Vo' t1 p1 e1 ne H1). eauto.
    + exact (list_put_length _ _ _ _ Q).
    + intros t1 p1 e1 H1. cbn [mthreads mshared]. rewrite NQ. simpl.
      destruct (Nat.eq_dec t t1) as [E1|n1], (Nat.eq_dec t1 t) as [E2|n2]; try congruence.
      * subst t1. rewrite Ht in H1. injection H1 as <- <-. exists (k a), e'. split; [reflexivity|].
        simpl. rewrite Vx. split; [reflexivity|]. split; [lia|]. exact Nm.
      * exists p1, e1. rewrite (Vo' t1 p1 e1 n2 H1). repeat split; auto; [lia|]. exists []; now rewrite app_nil_r.
Qed.
Lemma mtogether_good {A} order : forall g : mconfig T A, mgood g ->
  exists g', mtogether order g = Some g' /\ mgood g' /\ mfollows order g g'.
Proof.
  induction order as [|t r IH]; intros g G; simpl.
  - exists g. split; [reflexivity|]. split; auto. split; auto. intros t p e H. exists p, e. repeat split; auto.
    + simpl; lia. + exists []; now rewrite app_nil_r.
  - destruct (mtick_good g t G) as (g1 & -> & G1 & [L1 F1]).
    destruct (IH g1 G1) as (g' & -> & G' & [L2 F2]). exists g'. split; [reflexivity|]. split; auto.
    split; [congruence|]. intros t1 p e H.
    destruct (F1 t1 p e H) as (p1 & e1 & H1 & A1 & B1 & l1 & C1).
    destruct (F2 t1 p1 e1 H1) as (p2 & e2 & H2 & A2 & B2 & l2 & C2).
    exists p2, e2. split; auto. split; [congruence|]. split.
    + rewrite B2, B1. simpl. destruct (Nat.eq_dec t t1); simpl; lia.
    + exists (l1 ++ l2). rewrite C2, C1. now rewrite app_assoc.
Qed.
Lemma mgood_of {A} (g : mconfig T A) : wf (mshared g) -> separated (map snd (mthreads g)) (heap (mshared g)) ->
  (forall t p e, nth_error (mthreads g) t = Some (p, e) ->
     meaningful (heap (mshared g)) e /\ mwell_defined (malone p e (mshared g))) -> mgood g.
Proof.
  intros W S H.
  assert (P : pool (map snd (mthreads g)) (heap (mshared g))).
  { apply pool_separated. split; auto. intros t e Ht. rewrite nth_error_map in Ht.
    destruct (nth_error (mthreads g) t) as [[p e1]|] eqn:E; [|discriminate]. injection Ht as <-.
    exact (proj1 (H t p e1 E)). }
  split; [split; auto|]. intros t p e Ht Hv. destruct (H t p e Ht) as [M D].
  assert (O : own (heap (mshared g)) e). { apply (proj1 P t e). rewrite nth_error_map, Ht. reflexivity. }
  destruct (malone_vrun p e (mshared g) W M O) as [E _]. rewrite Hv in E.
  destruct (malone p e (mshared g)); try discriminate. exact D.
Qed.

(** ** What views tell about matrices *)
Definition ov_cell (x : @oview T) (k : nat) : option cell :=
  match x with VLive _ _ (SLive off cs) => nth_error cs (off + k) | _ => None end.
Lemma lincell_view (s : mstate) o k : lincell s o k = ov_cell (ov_of (heap s) o) k.
Proof.
  unfold lincell, ov_of. destruct (nth_error (objs (heap s)) o) as [[v|]|]; auto. simpl.
  destruct (oaddr v) as [[b off]|]; auto. simpl. unfold cellat, get_block.
  destruct (nth_error (blocks (heap s)) b) as [[cs|]|]; auto.
Qed.
Lemma exists_view (s : mstate) o : exists_m s o <-> ov_of (heap s) o <> VDead.
Proof.
  unfold exists_m, ov_of. destruct (nth_error (objs (heap s)) o) as [[v|]|]; split.
  - intros _. discriminate.
  - eauto.
  - intros [v E]. discriminate.
  - intros H. now contradiction H.
  - intros [v E]. discriminate.
  - intros H. now contradiction H.
Qed.
Lemma equal_of_view (s s' : mstate) o o' : ov_of (heap s) o = ov_of (heap s') o' -> nth_error (dims s) o = nth_error (dims s') o' ->
  equal_matrix s o s' o'.
Proof.
  intros V D. assert (Dm : m_dim s o = m_dim s' o').
  { unfold m_dim. rewrite <- !nth_default_eq. unfold nth_default. now rewrite D. }
  split; [rewrite !exists_view, V; tauto|]. unfold same_matrix, matrix_of. cbn [fr fc fl fe]. rewrite Dm.
  repeat split; auto. intros i j _ _. unfold element. rewrite Dm. now rewrite !lincell_view, V.
Qed.
Lemma view_same_matrices s e s' e' : mview_of s e = mview_of s' e' -> same_matrices e s e' s'.
Proof.
  intros H. assert (H1 : vn (view_of (heap s) e) = vn (view_of (heap s') e')) by (unfold mview_of in H; congruence).
  assert (H2 : mds (mview_of s e) = mds (mview_of s' e')) by now rewrite H. simpl in H1, H2. split.
  - apply (f_equal (@length _)) in H1. now rewrite !map_length in H1.
  - intros i o w N. apply (f_equal (fun l => nth_error l i)) in H1, H2. rewrite !nth_error_map, N in H1, H2.
    simpl in H1, H2. destruct (nth_error (names e') i) as [[o' w']|]; [|discriminate].
    simpl in H1, H2. injection H1 as H1 <-. injection H2 as H2. exists o'. split; auto. now apply equal_of_view.
Qed.

(** ** Accesses that can collide *)
Lemma mtouch_any (s : mstate) e c l wr : mtouches s e c l wr ->
  (exists i o w, nth_error (names e) i = Some (o, w) /\ l = LMembers o) \/
  (exists x b k, reach (heap s) e x b /\ l = LElement b k).
Proof.
  destruct c; cbn [mtouches]; try tauto.
  - apply touch_any.
  - intros (o & w & N & -> & _). left; eauto.
  - intros (o & w & N & -> & _). left; eauto.
Qed.
Lemma mtouch_write (s : mstate) e c l : mvexec c (mview_of s e) <> None -> mtouches s e c l true ->
  (exists i o, nth_error (names e) i = Some (o, true) /\ l = LMembers o) \/
  (exists x b k, may_write e x /\ reach (heap s) e x b /\ l = LElement b k).
Proof.
  intros D. destruct c as [c|i|i r c|ly]; cbn [mtouches]; try tauto.
  - apply touch_write. intros E. apply D. destruct (classic_new c) as [->|ne]; auto.
    assert (E2 : mvexec (MMem c) (mview_of s e) = match vexec c (view_of (heap s) e) with Some (a, V') => Some (a, MV V' (mds (mview_of s e))) | None => None end)
      by (destruct c; auto; contradiction).
    now rewrite E2, E.
  - intros (o & w & N & _ & X). discriminate.
  - intros (o & w & N & -> & _). left. exists i, o. split; auto. cbn [mvexec mview_of mv] in D.
    rewrite (view_name (heap s) e i o w N) in D. destruct w; auto. contradiction.
Qed.
Lemma mno_race {A} (g : mconfig T A) t t' c k c' k' e e' l wr wr' : mgood g -> t <> t' ->
  nth_error (mthreads g) t = Some (QAct c k, e) -> nth_error (mthreads g) t' = Some (QAct c' k', e') ->
  mtouches (mshared g) e c l wr -> mtouches (mshared g) e' c' l wr' -> wr = false.
Proof.
  intros [[[_ P] _] D] ne Ht Ht' X X'. destruct wr; auto. exfalso.
  assert (Ap : apart (heap (mshared g)) e e').
  { apply (P t t'); auto; rewrite nth_error_map; [rewrite Ht|rewrite Ht']; reflexivity. }
  apply mtouch_write in X.
  2: { specialize (D t _ e Ht). simpl in D. intros E. apply D. now rewrite E. }
  apply mtouch_any in X'.
  destruct X as [(i & o & N & ->)|(x & b & kk & W & R & ->)], X' as [(j & o' & w & N' & E)|(y & b' & k2 & R' & E)]; try discriminate.
  - injection E as <-. exact (proj1 Ap i j o w N N').
  - injection E as <- <-. exact (proj2 Ap x y b W R R').
Qed.

(** ** A matrix that nobody may write: as if a thread that has ended knew it *)
Definition mwatcher {A} (o : nat) : mprog T A * tenv := (QThrow EBadAlloc, TE [(o, false)] [] []).
Definition mwatched {A} (o : nat) (g : mconfig T A) : mconfig T A := MConfig (mthreads g ++ [mwatcher o]) (mshared g).
Lemma mtick_watched {A} o (g g' : mconfig T A) t : mtick t g = Some g' -> mtick t (mwatched o g) = Some (mwatched o g').
Proof.
  unfold mtick, mwatched. cbn [mthreads mshared]. rewrite nth_error_snoc.
  destruct (Nat.eq_dec t (length (mthreads g))) as [->|ne].
  - assert (E : nth_error (mthreads g) (length (mthreads g)) = None) by (apply nth_error_None; lia).
    rewrite E. intros [= <-]. reflexivity.
  - destruct (nth_error (mthreads g) t) as [[p e]|] eqn:Ht; [|intros [= <-]; reflexivity].
    destruct p as [a|x|u|c k]; try (intros [= <-]; reflexivity).
    destruct (mexec c e (mshared g)) as [[a e'] s'| |]; try discriminate.
    destruct (list_put (mthreads g) t (k a, e')) as [ts|] eqn:Q; [|discriminate].
    intros [= <-]. rewrite (list_put_app _ [mwatcher o] _ _ _ Q). reflexivity.
Qed.
Lemma mtogether_watched {A} o order : forall g g' : mconfig T A, mtogether order g = Some g' ->
  mtogether order (mwatched o g) = Some (mwatched o g').
Proof.
  induction order as [|t r IH]; simpl; intros g g'.
  - intros [= <-]. reflexivity.
  - destruct (mtick t g) as [g1|] eqn:E; [|discriminate]. intros H.
    rewrite (mtick_watched o g g1 t E). auto.
Qed.
Lemma mgood_watched {A} o (g : mconfig T A) : mgood g -> untouchable (map snd (mthreads g)) (heap (mshared g)) o -> mgood (mwatched o g).
Proof.
  intros [[P W] D] U. split; [split; auto|].
  - unfold mwatched. cbn [mthreads mshared].
    pose proof (good_watched o (Config (map (fun q => (PThrow EBadAlloc : prog T unit, snd q)) (mthreads g)) (heap (mshared g)))) as GW.
    assert (Em : map snd (map (fun q : mprog T A * tenv => (PThrow EBadAlloc : prog T unit, snd q)) (mthreads g)) = map snd (mthreads g))
      by (rewrite map_map; reflexivity).
    destruct GW as [GW _].
    + split; cbn [threads shared]; [now rewrite Em|]. intros t p e Ht. rewrite nth_error_map in Ht.
      destruct (nth_error (mthreads g) t); [|discriminate]. injection Ht as <- _. discriminate.
    + cbn [threads shared]. now rewrite Em.
    + cbn [threads shared watched] in GW. rewrite map_app, Em in GW. rewrite map_app. exact GW.
  - intros t p e. unfold mwatched. cbn [mthreads mshared]. rewrite nth_error_snoc. destruct (Nat.eq_dec t _); [|apply D].
    intros [= <- <-]. discriminate.
Qed.
Lemma muntouched {A} o order (g g' : mconfig T A) : mgood g -> untouchable (map snd (mthreads g)) (heap (mshared g)) o ->
  mtogether order g = Some g' -> equal_matrix (mshared g) o (mshared g') o.
Proof.
  intros G U H. destruct (mtogether_good order _ (mgood_watched o g G U)) as (g1 & H1 & G1 & [_ F]).
  rewrite (mtogether_watched o order g g' H) in H1. injection H1 as <-.
  destruct (F (length (mthreads g)) (QThrow EBadAlloc) (TE [(o, false)] [] [])) as (p' & e' & N & V & _).
  { cbn [mthreads mwatched]. rewrite nth_error_snoc. now destruct (Nat.eq_dec _ _). }
  assert (L : length (mthreads g') = length (mthreads g)).
  { destruct (mtogether_good order g G) as (g2 & H2 & _ & [L _]). rewrite H in H2. injection H2 as <-. exact L. }
  cbn [mthreads mwatched] in N. rewrite nth_error_snoc in N. rewrite L in N.
  destruct (Nat.eq_dec (length (mthreads g)) (length (mthreads g))) as [_|X]; [|now contradiction X].
  injection N as <- <-. cbn [mvrun mshared mwatched] in V. injection V as V V'. apply equal_of_view; congruence.
Qed.
End MProofs.
