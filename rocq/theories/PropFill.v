(** C72: random fills and random scalars.  C73: compile-time lookup in lists of types. *)
From Coq Require Import List ZArith Bool Arith Lia Permutation.
From Verif Require Import Base BaseFacts MatModel MatSpec MatProofs MatOps PromoteModel FillModel.
Import ListNotations.
Open Scope nat_scope.

(** ** C72 *)
(** what the k-th of several consecutive calls d(gen) returns, gen being in state g before the first *)
Section Consecutive.
Context {engine T : Type} (d : engine -> T * engine).
Fixpoint kth (g : engine) (k : nat) : T :=
  match k with O => fst (d g) | S k => kth (snd (d g)) k end.
Fixpoint after (g : engine) (k : nat) : engine :=
  match k with O => g | S k => after (snd (d g)) k end.
Lemma kth_after g k : kth g k = fst (d (after g k)).
Proof. revert g. induction k; intros g; cbn; auto. Qed.
Lemma after_S g k : after g (S k) = snd (d (after g k)).
Proof. revert g. induction k; intros g; cbn; auto. rewrite <- IHk. reflexivity. Qed.
End Consecutive.

(** a loop that threads a second, predictable state *)
Lemma for_n_thread {S E} (f : nat -> S * E -> out (S * E)) (f' : nat -> S -> out S) (e : nat -> E) n : forall i s,
  (forall k s, i <= k < i + n -> f k (s, e k) = (s' <- f' k s ;; Ok (s', e (Datatypes.S k)))) ->
  for_n n i f (s, e i) = (s' <- for_n n i f' s ;; Ok (s', e (i + n))).
Proof.
  induction n; intros i s H; cbn [for_n].
  - cbn. now rewrite Nat.add_0_r.
  - rewrite H by lia. destruct (f' i s) as [s1| |]; cbn [bind]; auto. rewrite IHn.
    + now rewrite Nat.add_succ_r.
    + intros k s2 K. apply H. lia.
Qed.
Lemma loop_thread {S E} (f : nat -> S * E -> out (S * E)) (f' : nat -> S -> out S) (e : nat -> E) n s e0 :
  e0 = e 0 -> (forall k s, k < n -> f k (s, e k) = (s' <- f' k s ;; Ok (s', e (Datatypes.S k)))) ->
  loop 0 n f (s, e0) = (s' <- loop 0 n f' s ;; Ok (s', e n)).
Proof. intros -> H. unfold loop. rewrite Nat.sub_0_r. apply (for_n_thread f f' e n 0 s). intros. apply H. lia. Qed.

Section Fill.
Context {world engine T : Type} (src : generator world engine) (dist : uniform engine T).

Lemma vwrite_loop (F : nat -> T) n : forall v, n <= length v ->
  loop 0 n (fun i v => vwrite v i (F i)) v = Ok (map (fun i => Some (F i)) (seq 0 n) ++ skipn n v).
Proof.
  intros v L.
  destruct (loop_inv (fun i s => s = map (fun i => Some (F i)) (seq 0 i) ++ skipn i v) (fun i v => vwrite v i (F i)) 0 n v) as (s' & E & H); auto; [lia| |].
  - intros k s K ->. unfold vwrite.
    assert (P : forall l (x y : option T) r, list_put (l ++ x :: r) (length l) y = Some (l ++ y :: r)) by (induction l; intros; cbn; auto; now rewrite IHl).
    assert (C : exists x, skipn k v = x :: skipn (S k) v).
    { assert (K' : k < length v) by lia. clear -K'. revert v K'. induction k; intros [|a v] K'; cbn [length] in K'; try lia; [now exists a|].
      destruct (IHk v) as (x & E); [lia|]. now exists x. }
    destruct C as (x & C). rewrite C.
    specialize (P (map (fun i => Some (F i)) (seq 0 k)) x (Some (F k)) (skipn (S k) v)). rewrite map_length, seq_length in P.
    rewrite P. eexists. split; [reflexivity|]. rewrite seq_S, map_app. cbn [Nat.add map app]. now rewrite <- app_assoc.
  - now rewrite E, H.
Qed.

(** v.random(low, high): one call of std::rand(), and the elements are consecutive values of the
    distribution from low to high *)
Theorem random_vector : forall v low high w lo hi,
  vread v low = Ok lo -> vread v high = Ok hi -> valid dist lo hi = true ->
  vector_random src dist v low high w =
    Ok (map (fun k => Some (kth (draw dist lo hi) (seeded src (fst (std_rand src w))) k)) (seq 0 (length v)), snd (std_rand src w)).
Proof.
  intros v low high w lo hi L H V. unfold vector_random. destruct (std_rand src w) as [s w']. cbn [fst snd].
  rewrite L, H. cbn [bind]. unfold make_distribution. rewrite V. cbn [bind]. set (d := draw dist lo hi). set (g := seeded src s).
  rewrite (loop_thread _ (fun i v => vwrite v i (kth d g i)) (after d g) (length v) v g) by
    (auto; intros k s1 K; rewrite kth_after, after_S; destruct (d (after d g k)) as [x g']; reflexivity).
  rewrite vwrite_loop by auto. cbn [bind]. rewrite skipn_all, app_nil_r. reflexivity.
Qed.
(** references to elements of the vector itself are as good as copies; its other elements do not matter *)
Theorem random_vector_aliasing : forall v low high lo hi w, vread v low = Ok lo -> vread v high = Ok hi ->
  vector_random src dist v low high w = vector_random src dist v (VVal lo) (VVal hi) w /\
  (forall v', length v' = length v -> vector_random src dist v' (VVal lo) (VVal hi) w = vector_random src dist v (VVal lo) (VVal hi) w).
Proof.
  intros v low high lo hi w L H.
  destruct (valid dist lo hi) eqn:V.
  - split; [|intros v' E]; rewrite !(random_vector _ _ _ w lo hi) by auto; auto. now rewrite E.
  - unfold vector_random, make_distribution. destruct (std_rand src w). cbn [vread]. rewrite L, H. cbn [bind]. rewrite V. cbn. auto.
Qed.
(** every element has whatever property all values of the distribution have *)
Theorem random_vector_range : forall (P : T -> Prop) v low high w lo hi v' w',
  vread v low = Ok lo -> vread v high = Ok hi -> (forall g, P (fst (draw dist lo hi g))) ->
  vector_random src dist v low high w = Ok (v', w') -> Forall (fun c => exists x, c = Some x /\ P x) v' /\ length v' = length v.
Proof.
  intros P v low high w lo hi v' w' L H D E. destruct (valid dist lo hi) eqn:V.
  - rewrite (random_vector _ _ _ w lo hi) in E by auto. injection E as <- _. split.
    + apply Forall_forall. intros c C. apply in_map_iff in C as (k & <- & _). eexists. split; [reflexivity|]. rewrite kth_after. apply D.
    + now rewrite map_length, seq_length.
  - exfalso. revert E. unfold vector_random, make_distribution. destruct (std_rand src w). rewrite L, H. cbn [bind]. rewrite V. discriminate.
Qed.
(** the shorter of two vectors filled from the same state of std::rand() is a prefix of the longer *)
Theorem random_vector_prefix : forall v1 v2 lo hi w v1' w1 v2' w2, length v1 <= length v2 ->
  vector_random src dist v1 (VVal lo) (VVal hi) w = Ok (v1', w1) -> vector_random src dist v2 (VVal lo) (VVal hi) w = Ok (v2', w2) ->
  v1' = firstn (length v1) v2' /\ w1 = w2.
Proof.
  intros v1 v2 lo hi w v1' w1 v2' w2 Le E1 E2. destruct (valid dist lo hi) eqn:V.
  - rewrite (random_vector _ _ _ w lo hi) in E1 by auto. rewrite (random_vector _ _ _ w lo hi) in E2 by auto. injection E1 as <- <-. injection E2 as <- <-.
    split; auto. rewrite firstn_map. f_equal. replace (length v2) with (length v1 + (length v2 - length v1)) by lia. rewrite seq_app, firstn_app.
    rewrite firstn_all2 by (rewrite seq_length; lia). rewrite seq_length, Nat.sub_diag. cbn [firstn]. now rewrite app_nil_r.
  - exfalso. revert E1. unfold vector_random, make_distribution. destruct (std_rand src w). cbn [vread bind]. rewrite V. discriminate.
Qed.
(** a run of fills is a function of the state of std::rand() at its start: from equal states (std::srand()) equal
    vectors result, whatever they held before *)
Fixpoint fills (l : list (list (option T))) (lo hi : T) (w : world) : out (list (list (option T)) * world) :=
  match l with
  | [] => Ok ([], w)
  | v :: l => '(v, w) <- vector_random src dist v (VVal lo) (VVal hi) w ;; '(r, w) <- fills l lo hi w ;; Ok (v :: r, w)
  end.
Theorem random_vector_reproducible : forall l l' lo hi w, map (@length _) l = map (@length _) l' ->
  fills l lo hi w = fills l' lo hi w.
Proof.
  induction l as [|v l IH]; intros [|v' l'] lo hi w E; try discriminate; auto. cbn [map] in E. injection E as E1 E2. cbn [fills].
  rewrite (proj2 (random_vector_aliasing v (VVal lo) (VVal hi) lo hi w eq_refl eq_refl) v') by auto.
  destruct (vector_random src dist v (VVal lo) (VVal hi) w) as [[u w']| |]; cbn [bind]; auto. now rewrite (IH l').
Qed.
(** an invalid range is undefined behaviour *)
Theorem random_vector_invalid : forall v low high w lo hi, vread v low = Ok lo -> vread v high = Ok hi -> valid dist lo hi = false ->
  vector_random src dist v low high w = UB.
Proof. intros v low high w lo hi L H V. unfold vector_random, make_distribution. destruct (std_rand src w). rewrite L, H. cbn [bind]. rewrite V. auto. Qed.

(** m.random(low, high): element (i,j) is the value drawn at its position in the storage *)
Theorem random_matrix : forall m low high device lo hi,
  mread m low = Ok lo -> mread m high = Ok hi -> valid dist lo hi = true ->
  exists m', matrix_random src dist m low high device = Ok m' /\ same_type m m' /\
    is_mat m' (fr m) (fc m) (fun i j => kth (draw dist lo hi) (seeded src device) (index (fl m) (fr m) (fc m) i j)).
Proof.
  intros m low high device lo hi L H V. unfold matrix_random. rewrite L, H. cbn [bind]. unfold make_distribution. rewrite V. cbn [bind].
  set (d := draw dist lo hi). set (g := seeded src device).
  destruct (each_mat m (fun i j s => wr s i j (kth d g (index (fl m) (fr m) (fc m) i j)))
              (fun i j => kth d g (index (fl m) (fr m) (fc m) i j)) (fr m) (fc m)) as (m' & E & R); auto.
  exists m'. split; auto. unfold each in E. destruct (fl m); cbn [index] in E.
  - rewrite (loop_thread _ (fun i => loop 0 (fc m) (fun j s => wr s i j (kth d g (i * fc m + j)))) (fun i => after d g (i * fc m)) (fr m) m g).
    + now rewrite E.
    + reflexivity.
    + intros i s I. rewrite (loop_thread _ (fun j s => wr s i j (kth d g (i * fc m + j))) (fun j => after d g (i * fc m + j)) (fc m) s).
      * replace (S i * fc m) with (i * fc m + fc m) by lia. reflexivity.
      * now rewrite Nat.add_0_r.
      * intros j s1 J. rewrite kth_after. replace (i * fc m + S j) with (S (i * fc m + j)) by lia. rewrite after_S. destruct (d (after d g (i * fc m + j))); auto.
  - rewrite (loop_thread _ (fun j => loop 0 (fr m) (fun i s => wr s i j (kth d g (j * fr m + i)))) (fun j => after d g (j * fr m)) (fc m) m g).
    + now rewrite E.
    + reflexivity.
    + intros j s J. rewrite (loop_thread _ (fun i s => wr s i j (kth d g (j * fr m + i))) (fun i => after d g (j * fr m + i)) (fr m) s).
      * replace (S j * fr m) with (j * fr m + fr m) by lia. reflexivity.
      * now rewrite Nat.add_0_r.
      * intros i s1 I. rewrite kth_after. replace (j * fr m + S i) with (S (j * fr m + i)) by lia. rewrite after_S. destruct (d (after d g (j * fr m + i))); auto.
Qed.
Lemma matrix_random_inv m low high device m' : matrix_random src dist m low high device = Ok m' ->
  exists lo hi, mread m low = Ok lo /\ mread m high = Ok hi /\ valid dist lo hi = true.
Proof.
  unfold matrix_random. destruct (mread m low) as [lo| |]; cbn [bind]; try discriminate. destruct (mread m high) as [hi| |]; cbn [bind]; try discriminate.
  unfold make_distribution. destruct (valid dist lo hi) eqn:V; cbn [bind]; try discriminate. intros _. eauto.
Qed.
Theorem random_matrix_range : forall (P : T -> Prop) m low high device lo hi m',
  mread m low = Ok lo -> mread m high = Ok hi -> (forall g, P (fst (draw dist lo hi g))) ->
  matrix_random src dist m low high device = Ok m' ->
  same_type m m' /\ fr m' = fr m /\ fc m' = fc m /\ forall i j, i < fr m -> j < fc m -> exists x, rd m' i j = Ok x /\ P x.
Proof.
  intros P m low high device lo hi m' L H D E. destruct (matrix_random_inv _ _ _ _ _ E) as (lo' & hi' & L' & H' & V).
  assert (lo' = lo) by congruence. assert (hi' = hi) by congruence. subst.
  destruct (random_matrix m low high device lo hi L H V) as (m'' & E' & S & R & C & M). rewrite E in E'. injection E' as <-.
  split; auto. split; auto. split; auto. intros i j I J. exists (kth (draw dist lo hi) (seeded src device) (index (fl m) (fr m) (fc m) i j)). split.
  - apply rd_ok; try lia. apply M; auto.
  - rewrite kth_after. apply D.
Qed.
(** from equal numbers of std::random_device a row-major matrix and the column-major matrix of the
    transposed size get transposed values, and neither depends on what it held *)
Theorem random_matrix_layout : forall m1 m2 lo hi device m1' m2',
  fl m1 = row_major -> fl m2 = col_major -> fr m2 = fc m1 -> fc m2 = fr m1 ->
  matrix_random src dist m1 (RVal lo) (RVal hi) device = Ok m1' -> matrix_random src dist m2 (RVal lo) (RVal hi) device = Ok m2' ->
  forall i j, i < fr m1 -> j < fc m1 -> rd m1' i j = rd m2' j i.
Proof.
  intros m1 m2 lo hi device m1' m2' F1 F2 R C E1 E2 i j I J. destruct (matrix_random_inv _ _ _ _ _ E1) as (lo' & hi' & L & H & V).
  cbn in L, H. injection L as <-. injection H as <-.
  destruct (random_matrix m1 (RVal lo) (RVal hi) device lo hi eq_refl eq_refl V) as (n1 & E1' & _ & R1 & C1 & M1).
  destruct (random_matrix m2 (RVal lo) (RVal hi) device lo hi eq_refl eq_refl V) as (n2 & E2' & _ & R2 & C2 & M2).
  rewrite E1 in E1'. injection E1' as <-. rewrite E2 in E2'. injection E2' as <-.
  rewrite (rd_ok m1' i j _) by (try lia; apply M1; auto). rewrite (rd_ok m2' j i _) by (try lia; apply M2; lia).
  rewrite F1, F2. cbn [index]. now rewrite R.
Qed.
Theorem random_matrix_aliasing : forall m low high lo hi device, mread m low = Ok lo -> mread m high = Ok hi ->
  matrix_random src dist m low high device = matrix_random src dist m (RVal lo) (RVal hi) device.
Proof. intros m low high lo hi device L H. unfold matrix_random. cbn [mread]. now rewrite L, H. Qed.

(** random_integer(min, max), random_real(min, max) *)
Theorem random_scalar_value : forall low high w, valid dist low high = true ->
  random_scalar src dist low high w = Ok (fst (draw dist low high (seeded src (fst (std_rand src w)))), snd (std_rand src w)).
Proof. intros low high w V. unfold random_scalar, make_distribution. destruct (std_rand src w). rewrite V. reflexivity. Qed.
(** a scalar is the first element of a vector filled from the same state *)
Theorem random_scalar_vector : forall v lo hi w x w', v <> [] -> random_scalar src dist lo hi w = Ok (x, w') ->
  exists v', vector_random src dist v (VVal lo) (VVal hi) w = Ok (v', w') /\ hd_error v' = Some (Some x).
Proof.
  intros v lo hi w x w' N E. destruct (valid dist lo hi) eqn:V.
  - rewrite random_scalar_value in E by auto. injection E as <- <-. rewrite (random_vector _ _ _ w lo hi) by auto. eexists. split; [reflexivity|].
    destruct v; [contradiction|reflexivity].
  - exfalso. revert E. unfold random_scalar, make_distribution. destruct (std_rand src w). rewrite V. discriminate.
Qed.
End Fill.

(** random_binary() gives 0 or 1 and random_polar() gives -1 or 1: 1 exactly where random_binary() gives 1 *)
Theorem random_binary_polar : forall world engine (src : generator world engine) (ints : uniform engine Z) w,
  valid ints 0%Z 1%Z = true -> (forall g, (0 <= fst (draw ints 0 1 g) <= 1)%Z) ->
  exists b w', random_binary src ints w = Ok (b, w') /\ (b = 0 \/ b = 1)%Z /\ random_polar src ints w = Ok ((2 * b - 1)%Z, w').
Proof.
  intros world engine src ints w V D. unfold random_polar, random_binary. rewrite random_scalar_value by auto.
  specialize (D (seeded src (fst (std_rand src w)))). set (b := fst (draw ints 0%Z 1%Z (seeded src (fst (std_rand src w))))) in *.
  exists b, (snd (std_rand src w)). split; auto. assert (b = 0 \/ b = 1)%Z as [-> | ->] by lia; auto.
Qed.
(** random_unit() lies in [0,1] if the distribution respects its bounds *)
Theorem random_unit_range : forall world engine T (Op : Ops T) (src : generator world engine) (reals : uniform engine T) (P : T -> Prop) w x w',
  (forall g, P (fst (draw reals zero one g))) -> random_unit_real src reals w = Ok (x, w') -> P x.
Proof.
  intros world engine T Op src reals P w x w' D. unfold random_unit_real, random_scalar, make_distribution. destruct (std_rand src w).
  destruct (valid reals zero one); cbn; [|discriminate]. intros [= <- _]. apply D.
Qed.

(** an example: a linear congruential engine (the std::minstd_rand0 of the standard), numbers modulo the size of the range *)
Definition lcg : generator Z Z := {| std_rand := fun w => (w mod 1000, w * 1103515245 + 12345)%Z; seeded := fun s => if (s mod 2147483647 =? 0)%Z then 1%Z else (s mod 2147483647)%Z |}.
Definition modulo : uniform Z Z := {| valid := Z.leb; draw := fun a b g => let g := (g * 16807 mod 2147483647)%Z in ((a + g mod (b - a + 1))%Z, g) |}.
Example random_case :
  vector_random lcg modulo [None; Some 3; Some 9]%Z (VElem 1) (VElem 2) 42%Z = Ok ([Some 3; Some 5; Some 7]%Z, (42 * 1103515245 + 12345)%Z) /\
  (exists m, matrix_random lcg modulo (FM 2 2 row_basis col_major MFixed (fun i j => Some 0%Z)) (RElem 1 1) (RVal 9%Z) 5%Z = Ok m /\
     rd m 0 0 = Ok 5%Z) /\
  random_polar lcg modulo 42%Z = Ok ((-1)%Z, (42 * 1103515245 + 12345)%Z) /\
  random_polar lcg modulo 43%Z = Ok (1%Z, (43 * 1103515245 + 12345)%Z) /\
  vector_random lcg modulo [Some 3; Some 9]%Z (VElem 1) (VElem 0) 42%Z = UB.
Proof. repeat split; try reflexivity. eexists. split; [reflexivity|]. vm_compute. reflexivity. Qed.

(** ** C73 *)
Section Lookup.
Context {A : Type} (same : A -> A -> bool).
Context (same_spec : forall a b, reflect (a = b) (same a b)).

(** type_map: the first entry with the wanted type decides; nothing is found exactly if there is none *)
Lemma map_first (l : list (A * A)) t u : find_first same l t = Some u <->
  exists before after, l = before ++ (t, u) :: after /\ Forall (fun e => fst e <> t) before.
Proof.
  induction l as [|[a b] l IH]; cbn [find_first].
  - split; [discriminate|]. intros (x & y & E & _). destruct x; discriminate.
  - destruct (same_spec t a) as [<-|N].
    + split.
      * intros [= ->]. exists [], l. auto.
      * intros ([|e x] & y & E & F); cbn in E; injection E; intros; subst; auto. inversion F as [|? ? N]. now destruct N.
    + rewrite IH. split.
      * intros (x & y & -> & F). exists ((a, b) :: x), y. split; auto.
      * intros ([|e x] & y & E & F); cbn in E; injection E; intros; subst; [now destruct N|]. inversion F; subst. eauto.
Qed.
Lemma map_none (l : list (A * A)) t : find_first same l t = None <-> ~ In t (map fst l).
Proof.
  induction l as [|[a b] l IH]; cbn [find_first map In fst]; [tauto|]. destruct (same_spec t a) as [<-|N].
  - split; [discriminate|tauto].
  - rewrite IH. intuition congruence.
Qed.
Lemma second_first (l : list (A * A)) t : find_second same l t = find_first same (map (fun e => (snd e, fst e)) l) t.
Proof. induction l as [|[a b] l IH]; cbn; auto. now rewrite IH. Qed.

Theorem type_map_lookup : forall (l : list (A * A)) t,
  (forall u, find_first same l t = Some u <-> exists before after, l = before ++ (t, u) :: after /\ Forall (fun e => fst e <> t) before) /\
  (forall u, find_second same l t = Some u <-> exists before after, l = before ++ (u, t) :: after /\ Forall (fun e => snd e <> t) before) /\
  (find_first same l t = None <-> ~ In t (map fst l)) /\ (find_second same l t = None <-> ~ In t (map snd l)).
Proof.
  intros l t. split; [intros u; apply map_first|]. split; [|split; [apply map_none|]].
  - intros u. rewrite second_first, map_first. split.
    + intros (x & y & E & F). exists (map (fun e => (snd e, fst e)) x), (map (fun e => (snd e, fst e)) y). split.
      * apply (f_equal (map (fun e => (snd e, fst e)))) in E. rewrite map_map in E. rewrite (map_ext _ (fun e => e)) in E by (now intros []).
        rewrite map_id, map_app in E. exact E.
      * apply Forall_map. apply (Forall_impl _ (P := fun e => fst e <> t)); auto.
    + intros (x & y & -> & F). exists (map (fun e => (snd e, fst e)) x), (map (fun e => (snd e, fst e)) y). split.
      * now rewrite map_app.
      * apply Forall_map. auto.
  - rewrite second_first, map_none, map_map. cbn [fst]. tauto.
Qed.
(** with unique types on both sides it is a bijection, and the order of the entries is irrelevant *)
Lemma first_in (l : list (A * A)) t u : NoDup (map fst l) -> find_first same l t = Some u <-> In (t, u) l.
Proof.
  induction l as [|[a b] l IH]; cbn [find_first map fst In]; intros D; [split; [discriminate|tauto]|]. inversion D as [|? ? N D']; subst.
  destruct (same_spec t a) as [<-|X].
  - split; [intros [= ->]; auto|]. intros [[= ->]|I]; auto. destruct N. now apply (in_map fst) in I.
  - rewrite IH by auto. split; auto. intros [[= -> _]|I]; auto. now destruct X.
Qed.
Lemma second_in (l : list (A * A)) t u : NoDup (map snd l) -> find_second same l u = Some t <-> In (t, u) l.
Proof.
  intros D. rewrite second_first, first_in.
  - rewrite in_map_iff. split; [intros ([a b] & [= -> ->] & I); auto|]. intros I. now exists (t, u).
  - rewrite map_map. cbn [fst]. auto.
Qed.
Theorem type_map_bijective : forall (l : list (A * A)), NoDup (map fst l) -> NoDup (map snd l) ->
  (forall t u, find_first same l t = Some u <-> find_second same l u = Some t) /\
  (forall t t' u, find_first same l t = Some u -> find_first same l t' = Some u -> t = t').
Proof.
  intros l D1 D2. assert (E : forall t u, find_first same l t = Some u <-> find_second same l u = Some t) by (intros; rewrite first_in, second_in; tauto).
  split; auto. intros t t' u H1 H2. apply E in H1. apply E in H2. congruence.
Qed.
Theorem type_map_order : forall (l l' : list (A * A)) t, NoDup (map fst l) -> Permutation l l' -> find_first same l t = find_first same l' t.
Proof.
  intros l l' t D P. assert (D' : NoDup (map fst l')) by (eapply Permutation_NoDup; [apply Permutation_map; eauto|auto]).
  destruct (find_first same l t) as [u|] eqn:E.
  - apply first_in in E; auto. symmetry. apply first_in; auto. eapply Permutation_in; eauto.
  - symmetry. apply map_none. apply map_none in E. intros I. apply E. eapply Permutation_in; [apply Permutation_sym, Permutation_map; eauto|auto].
Qed.

(** type_table: the first entry for the unordered pair decides *)
Definition for_pair {B} (a b : A) (e : A * A * B) : Prop := fst e = (a, b) \/ fst e = (b, a).
Lemma pair_match_spec a b x y : reflect ((x, y) = (a, b) \/ (x, y) = (b, a)) (pair_match same a b x y).
Proof.
  unfold pair_match. destruct (same_spec a x) as [->|], (same_spec b y) as [->|]; cbn [andb orb]; try (constructor; intuition congruence).
  - destruct (same_spec x y) as [->|], (same_spec b y); cbn [andb orb]; constructor; intuition congruence.
  - destruct (same_spec a y) as [->|], (same_spec y x); cbn [andb orb]; constructor; intuition congruence.
  - destruct (same_spec a y) as [->|], (same_spec b x) as [->|]; cbn [andb orb]; constructor; intuition congruence.
Qed.
Theorem type_table_lookup : forall B (l : list (A * A * B)) a b,
  table_find same l a b = table_find same l b a /\
  (forall r, table_find same l a b = Some r <->
     exists before e after, l = before ++ e :: after /\ for_pair a b e /\ snd e = r /\ Forall (fun e => ~ for_pair a b e) before) /\
  (table_find same l a b = None <-> Forall (fun e => ~ for_pair a b e) l).
Proof.
  intros B l a b. split; [|split].
  - induction l as [|[[x y] r] l IH]; cbn; auto. rewrite IH. replace (pair_match same b a x y) with (pair_match same a b x y); auto.
    unfold pair_match. rewrite (andb_comm (same b x)), (andb_comm (same b y)). apply orb_comm.
  - intros r. induction l as [|[[x y] q] l IH]; cbn [table_find].
    + split; [discriminate|]. intros (l1 & e & l2 & E & _). destruct l1; discriminate.
    + destruct (pair_match_spec a b x y) as [M|M].
      * split.
        -- intros [= ->]. exists [], (x, y, r), l. unfold for_pair. cbn. auto.
        -- intros ([|e1 l1] & e & l2 & E & P & R & F); cbn in E; injection E; intros; subst; auto. inversion F as [|? ? N]. destruct N. exact M.
      * rewrite IH. split.
        -- intros (l1 & e & l2 & -> & P & R & F). exists ((x, y, q) :: l1), e, l2. auto.
        -- intros ([|e1 l1] & e & l2 & E & P & R & F); cbn in E; injection E; intros; subst; [contradiction|]. inversion F; subst. eauto 8.
  - induction l as [|[[x y] q] l IH]; cbn [table_find]; [split; auto|]. destruct (pair_match_spec a b x y) as [M|M].
    + split; [discriminate|]. intros F. inversion F as [|? ? N]. destruct N. exact M.
    + rewrite IH. split; [constructor; auto|]. intros F. now inversion F.
Qed.
(** if no two entries disagree the order is irrelevant *)
Theorem type_table_order : forall B (l l' : list (A * A * B)) a b,
  (forall e e', In e l -> In e' l -> for_pair a b e -> for_pair a b e' -> snd e = snd e') -> Permutation l l' ->
  table_find same l a b = table_find same l' a b.
Proof.
  intros B l l' a b C P. destruct (type_table_lookup B l a b) as (_ & S & N). destruct (type_table_lookup B l' a b) as (_ & S' & N').
  destruct (table_find same l a b) as [r|].
  - destruct (proj1 (S r) eq_refl) as (l1 & e & l2 & -> & M & R & F). destruct (table_find same l' a b) as [r'|].
    + destruct (proj1 (S' r') eq_refl) as (k1 & e' & k2 & -> & M' & R' & F'). f_equal. rewrite <- R, <- R'. apply C; auto.
      * apply in_or_app; cbn; auto.
      * eapply Permutation_in; [apply Permutation_sym, P|]. apply in_or_app; cbn; auto.
    + exfalso. pose proof (proj1 N' eq_refl) as E'. rewrite Forall_forall in E'. apply (E' e); auto. eapply Permutation_in; [exact P|]. apply in_or_app; cbn; auto.
  - symmetry. apply N'. pose proof (proj1 N eq_refl) as E. rewrite Forall_forall in *. intros e I. apply E. eapply Permutation_in; [apply Permutation_sym, P|auto].
Qed.
Theorem same_pair : forall t1 t2 u1 u2, is_same_pair same t1 t2 u1 u2 = true <-> (t1, t2) = (u1, u2) \/ (t1, t2) = (u2, u1).
Proof.
  intros t1 t2 u1 u2. unfold is_same_pair. destruct (same_spec u1 u2) as [->|].
  - destruct (same_spec t1 u2), (same_spec t2 u2); cbn; intuition congruence.
  - destruct (same_spec t1 u1), (same_spec t2 u2), (same_spec t1 u2), (same_spec t2 u1); cbn; intuition congruence.
Qed.
Theorem all_same : forall to from froms, are_same same to from froms = true <-> Forall (eq to) (from :: froms).
Proof.
  intros to from froms. revert from. induction froms as [|f fs IH]; intros from; cbn [are_same].
  - destruct (same_spec from to) as [->|]; split; auto; try discriminate. intros F. inversion F. congruence.
  - rewrite andb_true_iff, IH. destruct (same_spec from to) as [->|]; split.
    + intros [_ F]. auto.
    + intros F. inversion F. auto.
    + intros []. discriminate.
    + intros F. inversion F. congruence.
Qed.
End Lookup.

(** "a bijective mapping" is not checked: with a repeated type the two searches disagree *)
Theorem type_map_bijective_refuted : exists (l : list (nat * nat)) t u, find_first Nat.eqb l t = Some u /\ find_second Nat.eqb l u <> Some t.
Proof. exists [(1, 3); (2, 3)], 2, 3. split; [reflexivity|]. discriminate. Qed.
(** "T2 is the first type of the matching entry": it is the second *)
Theorem type_map_documented_refuted : exists (l : list (nat * nat)) e, In e l /\ NoDup (map fst l) /\ find_first Nat.eqb l (fst e) <> Some (fst e).
Proof. exists [(1, 2)], (1, 2). cbn. split; auto. split; [repeat constructor; cbn; tauto|discriminate]. Qed.

(** the table of storage_promote covers every pair of selectors once, both static assertions hold, and its
    lookup is the promotion of C50 *)
Theorem storage_table : forall s1 s2 prefer,
  table_promote s1 s2 prefer = Some (storage_promote s1 s2 prefer) /\
  forall fixed, exists e, filter (fun e => pair_match selector_eqb (sel s1) (sel s2) (fst (fst e)) (snd (fst e))) (selector_table fixed) = [e].
Proof.
  intros s1 s2 prefer. split.
  - unfold table_promote, storage_promote. destruct (negb prefer || (is_fixed_size s1 && is_fixed_size s2)), (sel s1), (sel s2); reflexivity.
  - intros fixed. destruct (sel s1), (sel s2); eexists; reflexivity.
Qed.
Example lookup_case :
  let l := [(1, 10); (2, 20); (3, 30)] in
  find_first Nat.eqb l 2 = Some 20 /\ find_second Nat.eqb l 30 = Some 3 /\ find_first Nat.eqb l 10 = None /\ NoDup (map fst l) /\ NoDup (map snd l) /\
  table_find Nat.eqb [(1, 2, true); (2, 1, false); (3, 3, false)] 2 1 = Some true /\
  table_find Nat.eqb [(1, 2, true); (2, 1, false); (3, 3, false)] 3 1 = None /\
  are_same Nat.eqb 4 4 [4; 4] = true /\ are_same Nat.eqb 4 4 [4; 5] = false.
Proof. cbn. repeat split; auto; repeat constructor; cbn; lia. Qed.

Print Assumptions random_vector.
Print Assumptions random_matrix.
Print Assumptions type_map_bijective.
Print Assumptions type_table_lookup.
