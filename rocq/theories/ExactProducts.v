(** Products without any law of the scalar operations: the order of the operations
    is the one of the loops. *)
From Coq Require Import List ZArith Bool Arith Lia.
From Verif Require Import Base BaseFacts MatModel MatSpec MatProofs MatOps VecModel.
Import ListNotations.

Section Products.
Context {T : Type} {Op : Ops T}.
Lemma acc_S (x : nat -> T) n : accumulate (S (S n)) x = add (accumulate (S n) x) (x (S n)).
Proof. unfold accumulate. replace (S (S n) - 1) with (S n) by lia. replace (S n - 1) with n by lia. rewrite seq_S, fold_left_app. reflexivity. Qed.
Lemma acc_ext n (x y : nat -> T) : 0 < n -> (forall k, k < n -> x k = y k) -> accumulate n x = accumulate n y.
Proof.
  intros Hn. destruct n as [|n]; [lia|]. clear Hn. induction n as [|n IH]; intros H; [apply H; lia|].
  rewrite !acc_S, IH, H by (auto; lia). auto.
Qed.
Lemma inner_ok n a b A B : 0 < n ->
  (forall k, k < n -> a k = Ok (A k)) -> (forall k, k < n -> b k = Ok (B k)) ->
  inner n a b = Ok (accumulate n (fun k => mul (A k) (B k))).
Proof.
  intros Hn Ha Hb. unfold inner. rewrite Ha, Hb by auto. simpl.
  destruct (loop_inv (fun k s => s = accumulate k (fun k => mul (A k) (B k)))
    (fun k s => x <- a k ;; y <- b k ;; Ok (add s (mul x y))) 1 n (mul (A 0) (B 0))) as (s & E & V).
  - lia.
  - reflexivity.
  - intros k s Hk ->. rewrite Ha, Hb by lia. simpl. destruct k as [|k]; [lia|]. rewrite acc_S. eauto.
  - rewrite E, V. auto.
Qed.
Lemma product_acc a b r n c A B bs l k : reads a r n A -> reads b n c B -> 0 < n ->
  exists m, product a b bs l k = Ok m /\ fb m = bs /\ fl m = l /\ fk m = k /\
    is_mat m r c (fun i j => accumulate n (fun q => mul (A i q) (B q j))).
Proof.
  intros (A1 & A2 & A3) (B1 & B2 & B3) Hn. unfold product. rewrite A1, A2, B1, B2, Nat.eqb_refl. simpl.
  set (F := fun i j => accumulate n (fun q => mul (A i q) (B q j))).
  assert (H : forall i j s, i < r -> j < c ->
     m <- inner n (fun k => rg a i k) (fun k => rg b k j) ;; wr s i j m = wr s i j (F i j)).
  { intros i j s Hi Hj. rewrite (inner_ok n _ _ (A i) (fun q => B q j)); auto. }
  destruct (each_ok (fresh r c bs row_major k) (fun i j s => wr s i j (F i j)) F) as (s & E & D & V).
  { auto. }
  unfold each in E. simpl in E.
  (* the order of the loop is row order whatever the layout tag of the result *)
  set (body := fun i => loop 0 c (fun j (s : fmat T) =>
     m <- inner n (fun k => rg a i k) (fun k => rg b k j) ;; wr s i j m)).
  destruct (loop_inv (fun i s => fr s = r /\ fc s = c /\ fb s = bs /\ fl s = l /\ fk s = k /\
      forall i' j', i' < i -> j' < c -> fe s i' j' = Some (F i' j')) body 0 r (fresh r c bs l k))
      as (s1 & E1 & D1).
  - lia.
  - simpl. repeat split; auto. lia.
  - intros i s1 [_ Hi] (C1 & C2 & C3 & C4 & C5 & C6).
    destruct (loop_inv (fun j s => dims s1 s /\
      (forall i' j', i' < i -> j' < c -> fe s i' j' = Some (F i' j')) /\
      (forall j', j' < j -> fe s i j' = Some (F i j')))
      (fun j (s : fmat T) =>
        m <- inner n (fun k => rg a i k) (fun k => rg b k j) ;; wr s i j m) 0 c s1) as (s2 & E2 & D2 & V1 & V2).
    + lia.
    + split; [apply dims_refl|]. split; auto. lia.
    + intros j s2 [_ Hj] (D2 & V1 & V2). rewrite H by auto. assert (D2' := D2). destruct D2' as (Q1 & Q2 & _).
      destruct (wr_ok s2 i j (F i j)) as (s3 & W & Wd & Wv); try lia.
      exists s3. split; auto. split; [eapply dims_trans; eauto|]. split.
      * intros i' j' Hi' Hj'. rewrite Wv. destruct (Nat.eqb_spec i' i); simpl; auto; lia.
      * intros j' Hj'. rewrite Wv, Nat.eqb_refl. simpl. destruct (Nat.eqb_spec j' j); subst; auto.
        apply V2; lia.
    + exists s2. split; auto. destruct D2 as (Q1 & Q2 & Q3 & Q4 & Q5).
      repeat split; try congruence. intros i' j' Hi' Hj'.
      destruct (Nat.eq_dec i' i); [subst; auto|apply V1; auto; lia].
  - exists s1. split; [exact E1|]. unfold is_mat. tauto.
Qed.


Lemma mat_vec_acc a v r n A d : reads a r n A -> length v = n -> 0 < n ->
  mat_vec a v = Ok (map (fun i => accumulate n (fun q => mul (A i q) (nth q v d))) (seq 0 r)).
Proof.
  intros (A1 & A2 & A3) Hl Hn. unfold mat_vec. rewrite A1, A2, Hl, Nat.eqb_refl. simpl.
  apply mapO_pure. intros i Hi. apply in_seq in Hi.
  apply (inner_ok n _ _ (A i) (fun q => nth q v d)); auto.
  - intros; apply A3; auto; lia.
  - intros; apply vget_ok; lia.
Qed.
Lemma vec_mat_acc v b n c B d : length v = n -> reads b n c B -> 0 < n ->
  vec_mat v b = Ok (map (fun j => accumulate n (fun q => mul (nth q v d) (B q j))) (seq 0 c)).
Proof.
  intros Hl (A1 & A2 & A3) Hn. unfold vec_mat. rewrite A1, A2, Hl, Nat.eqb_refl. simpl.
  apply mapO_pure. intros i Hi. apply in_seq in Hi.
  apply (inner_ok n _ _ (fun q => nth q v d) (fun q => B q i)); auto.
  - intros; apply vget_ok; lia.
  - intros; apply A3; auto; lia.
Qed.
End Products.
