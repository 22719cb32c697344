(** Gauss-Jordan elimination and LU decomposition with truncating division. *)
From Coq Require Import ZArith Bool List Arith Lia.
From Verif Require Import Base MatModel LUModel ExactLU IntModel PropInt IntInvSpec IntInvProofs.
Import ListNotations.
Open Scope Z_scope.

Section Type_t.
Context (t : ity) (Ht : bits int_t <= bits t).
#[local] Instance t_ops : Ops (option Z) := int_ops t.
Notation wide8 := (wide8 t Ht).
Notation prom := (prom t Ht).

(** ** Elimination with truncating division *)
Notation grid := (nat -> nat -> option Z).
Definition dead1 (x : option Z) : Prop := x = Some 0 \/ x = None.
Definition dead (N c : nat) (M : grid) : Prop := forall k, (k < N)%nat -> dead1 (M c k).

Lemma compute_0 : compute t 0 = Some 0.
Proof using Ht.
  pose proof wide8 as W. unfold compute. rewrite prom. rewrite (proj1 (zero_one_range t W)), andb_false_r. rewrite (convert_id t W); auto. apply zero_one_range; auto.
Qed.
Lemma mul_dead x y : dead1 x -> dead1 (mul x y).
Proof using Ht.
  intros [-> | ->]; [|right; reflexivity]. destruct y as [y|]; [|right; reflexivity]. left. cbn. apply compute_0.
Qed.
Lemma mul_dead_r x y : dead1 y -> dead1 (mul x y).
Proof using Ht.
  intros [-> | ->]; [|right; destruct x; reflexivity]. destruct x as [x|]; [|right; reflexivity]. left. cbn. rewrite Z.mul_0_r. apply compute_0.
Qed.
Lemma add_dead x y : dead1 x -> dead1 y -> dead1 (add x y).
Proof using Ht.
  intros [-> | ->] [-> | ->]; try (right; reflexivity). left. cbn. apply compute_0.
Qed.
Lemma neg_dead x : dead1 x -> dead1 (neg x).
Proof using Ht. intros [-> | ->]; [left; cbn; apply compute_0|right; reflexivity]. Qed.

Lemma swap_rows_other N r s (M : grid) a k : a <> r -> a <> s -> swap_rows N r s M a k = M a k.
Proof.
  intros Hr Hs. unfold swap_rows. apply (up_inv (fun _ (M' : grid) => M' a k = M a k)); [lia|auto|].
  intros i M' _ H. unfold upd. rewrite (proj2 (Nat.eqb_neq a s)), (proj2 (Nat.eqb_neq a r)) by auto. exact H.
Qed.
Lemma swap_rows_both N r s (M : grid) k : r <> s -> (k < N)%nat -> swap_rows N r s M s k = M r k /\ swap_rows N r s M r k = M s k.
Proof.
  intros Hrs Hk.
  assert (P : forall k, (k < N -> swap_rows N r s M s k = M r k /\ swap_rows N r s M r k = M s k)%nat).
  { unfold swap_rows.
    assert (Q : (fun i (M' : grid) => (forall k, k < i -> M' s k = M r k /\ M' r k = M s k) /\ (forall k, i <= k -> M' s k = M s k /\ M' r k = M r k))%nat N
      (for_upto 0 N (fun i M => let a := M r i in let b := M s i in upd (upd M r i b) s i a) M)).
    { apply up_inv; [lia|split; [intros; lia|auto]|]. intros i M' Hi [A B]. cbv zeta. unfold upd. split.
      - intros j Hj. rewrite !Nat.eqb_refl, (proj2 (Nat.eqb_neq r s)) by auto. cbn [andb].
        destruct (Nat.eqb_spec j i) as [->|Hn]; [destruct (B i (le_n i)); auto|].
        rewrite andb_false_r. apply A. lia.
      - intros j Hj. destruct (Nat.eqb_spec j i); [lia|]. rewrite !andb_false_r. apply B. lia. }
    intros j Hj. apply Q. exact Hj. }
  apply P. exact Hk.
Qed.
Lemma swap_rows_to N r s (M : grid) k : r <> s -> (k < N)%nat -> swap_rows N r s M s k = M r k.
Proof. intros. apply swap_rows_both; auto. Qed.
Lemma swap_rows_from N r s (M : grid) k : r <> s -> (k < N)%nat -> swap_rows N r s M r k = M s k.
Proof. intros. apply swap_rows_both; auto. Qed.

(** the pivot row is scaled, and not touched again *)
Lemma eliminate_row N c (M : grid) k : (k < N)%nat ->
  eliminate N c M c k = mul (if Nat.eqb k c then Some 1 else M c k) (div (Some 1) (M c c)).
Proof.
  intros Hk. unfold eliminate. change (@one (option Z) t_ops) with (Some 1). change (@zero (option Z) t_ops) with (Some 0).
  set (s := div (Some 1) (M c c)). set (M0 := upd M c c (Some 1)).
  assert (E0 : M0 c k = if Nat.eqb k c then Some 1 else M c k) by (unfold M0, upd; rewrite Nat.eqb_refl; reflexivity).
  rewrite <- E0. clear E0. clearbody M0 s.
  set (M1 := for_upto 0 N (fun j M => upd M c j (mul (M c j) s)) M0).
  assert (E1 : M1 c k = mul (M0 c k) s).
  { assert (Q : (fun i (M' : grid) => (forall k, k < i -> M' c k = mul (M0 c k) s) /\ (forall k, i <= k -> M' c k = M0 c k))%nat N M1).
    { unfold M1. apply up_inv; [lia|split; [intros; lia|auto]|]. intros i M' Hi [A B]. unfold upd. rewrite Nat.eqb_refl. cbn [andb]. split; intros j Hj.
      - destruct (Nat.eqb_spec j i) as [->|Hn]; [rewrite (B i); auto|apply A; lia].
      - destruct (Nat.eqb_spec j i); [lia|]. apply B. lia. }
    apply Q. exact Hk. }
  rewrite <- E1. clearbody M1.
  apply (up_inv (fun _ (M' : grid) => M' c k = M1 c k)); [lia|auto|].
  intros j M' Hj IH. destruct (Nat.eqb_spec j c) as [->|Hn]; [exact IH|].
  assert (U : forall (A : grid) a b x, a <> c -> upd A a b x c k = A c k).
  { intros A a b x Ha. unfold upd. rewrite (proj2 (Nat.eqb_neq c a)) by auto. reflexivity. }
  apply (up_inv (fun _ (A : grid) => A c k = M1 c k)); [lia|rewrite U by auto; exact IH|].
  intros i A _ HA. rewrite U by auto. exact HA.
Qed.
(** a dead row stays dead *)
Lemma eliminate_dead N col c (M : grid) : (c < N)%nat -> (col < N)%nat -> dead N c M -> dead N c (eliminate N col M).
Proof using Ht.
  intros Hc Hcol D. destruct (Nat.eq_dec col c) as [->|Hn].
  - intros k Hk. rewrite eliminate_row by auto. right.
    assert (E : div (Some 1) (M c c) = None) by (destruct (D c Hc) as [-> | ->]; reflexivity).
    rewrite E. destruct (if Nat.eqb k c then Some 1 else M c k); reflexivity.
  - unfold eliminate. change (@one (option Z) t_ops) with (Some 1). change (@zero (option Z) t_ops) with (Some 0).
    set (s := div (Some 1) (M col col)).
    assert (U : forall (A : grid) b x, dead N c A -> dead N c (upd A col b x)).
    { intros A b x HA k Hk. unfold upd. rewrite (proj2 (Nat.eqb_neq c col)) by auto. apply HA. exact Hk. }
    apply (up_inv (fun _ (A : grid) => dead N c A)); [lia| |].
    + apply (up_inv (fun _ (A : grid) => dead N c A)); [lia|apply U; auto|]. intros. apply U. auto.
    + intros j A Hj DA. destruct (Nat.eqb_spec j col) as [->|Hj']; [exact DA|].
      destruct (Nat.eq_dec j c) as [->|Hjc].
      * assert (Dm : dead1 (neg (A c col))) by (apply neg_dead, DA, Hcol).
        set (mult := neg (A c col)) in *. clearbody mult.
        apply (up_inv (fun _ (B : grid) => dead N c B)); [lia| |].
        -- intros k Hk. unfold upd. rewrite Nat.eqb_refl. cbn [andb]. destruct (Nat.eqb k col); [left; reflexivity|apply DA; auto].
        -- intros k B Hk DB k' Hk'. unfold upd. rewrite Nat.eqb_refl. cbn [andb]. destruct (Nat.eqb k' k); [|apply DB; auto].
           apply add_dead; [apply DB; lia|apply mul_dead; auto].
      * assert (U' : forall (B : grid) b x, dead N c B -> dead N c (upd B j b x)).
        { intros B b x HB k Hk. unfold upd. rewrite (proj2 (Nat.eqb_neq c j)) by auto. apply HB. exact Hk. }
        apply (up_inv (fun _ (B : grid) => dead N c B)); [lia|apply U'; auto|]. intros. apply U'. auto.
Qed.

Section Pivot.
Context (fabs : option Z -> option Z).
Lemma full_pivot_where N (M : grid) piv : let '(_, r, k) := find_full_pivot fabs N M piv in
  (r = 0 /\ k = 0 \/ piv r = false /\ piv k = false /\ r < N /\ k < N)%nat.
Proof.
  unfold find_full_pivot.
  apply (up_inv (fun _ (s : option Z * nat * nat) => let '(_, r, k) := s in (r = 0 /\ k = 0 \/ piv r = false /\ piv k = false /\ r < N /\ k < N)%nat)); [lia|left; auto|].
  intros j s Hj Hs. destruct (piv j) eqn:Pj; [exact Hs|].
  apply (up_inv (fun _ (s : option Z * nat * nat) => let '(_, r, k) := s in (r = 0 /\ k = 0 \/ piv r = false /\ piv k = false /\ r < N /\ k < N)%nat)); [lia|exact Hs|].
  intros k [[p r] c] Hk H. destruct (piv k) eqn:Pk; [exact H|]. destruct (ltb p (fabs (M j k))); [|exact H].
  right. repeat split; auto; lia.
Qed.
Lemma step_dead N i c (s : inv_state) : (c < N)%nat -> dead N c (is_m s) -> is_piv s c = true ->
  (forall k, is_rows s k < N /\ is_cols s k < N)%nat ->
  let s' := inverse_step fabs N i s in
  dead N c (is_m s') /\ is_piv s' c = true /\ (forall k, is_rows s' k < N /\ is_cols s' k < N)%nat.
Proof using Ht.
  intros Hc D P B. unfold inverse_step. pose proof (full_pivot_where N (is_m s) (is_piv s)) as W.
  destruct (find_full_pivot fabs N (is_m s) (is_piv s)) as [[p r] k]. cbn [is_m is_piv is_rows is_cols].
  assert (Bk : (r < N /\ k < N)%nat) by lia.
  split; [|split].
  - apply eliminate_dead; [auto|lia|]. destruct (Nat.eqb_spec r k) as [->|Hn]; [exact D|].
    destruct W as [W|(W1 & W2 & _)]; [lia|].
    intros j Hj. rewrite swap_rows_other; [apply D; auto| |]; intros E; subst c; congruence.
  - unfold put. destruct (Nat.eqb c k); auto.
  - intros j. unfold put. specialize (B j). destruct (Nat.eqb j i); lia.
Qed.
Lemma swap_cols_dead N r s c (M : grid) : (r < N)%nat -> (s < N)%nat -> dead N c M -> dead N c (swap_cols N r s M).
Proof.
  intros Hr Hs D. unfold swap_cols. apply (up_inv (fun _ (A : grid) => dead N c A)); [lia|auto|].
  intros j A Hj DA k Hk. cbv zeta. unfold upd. destruct (Nat.eqb_spec c j) as [<-|Hn]; cbn [andb]; [|apply DA; auto].
  destruct (Nat.eqb k s); [apply DA; auto|]. destruct (Nat.eqb k r); apply DA; auto.
Qed.

Context (M : nat -> nat -> Z) (N : nat).
Hypothesis (absM : forall i j, fabs (Some (M i j)) = Some (Z.abs (M i j))).
Context (G : grid).
Hypothesis HG : forall i j, G i j = Some (M i j).
Lemma first_pivot : (0 < N)%nat -> let '(p, r, k) := find_full_pivot fabs N G (fun _ => false) in
  p = Some (Z.abs (M r k)) /\ (r < N /\ k < N)%nat /\ forall i j, (i < N)%nat -> (j < N)%nat -> Z.abs (M i j) <= Z.abs (M r k).
Proof using absM HG.
  intros HN. unfold find_full_pivot.
  pose (P := fun (i : nat) (s : option Z * nat * nat) => let '(p, r, k) := s in p = Some (Z.abs (M r k)) /\ (r < N /\ k < N)%nat /\
     forall a b, (a < i)%nat -> (b < N)%nat -> Z.abs (M a b) <= Z.abs (M r k)).
  match goal with |- context [for_upto 0 N ?f ?s0] => assert (Q : P N (for_upto 0 N f s0)) end.
  { apply (up_inv P); [lia|split; [rewrite HG; apply absM|split; [lia|intros; lia]]|].
    intros j s Hj Hs. cbv beta iota.
    pose (P' := fun (i : nat) (s : option Z * nat * nat) => let '(p, r, k) := s in p = Some (Z.abs (M r k)) /\ (r < N /\ k < N)%nat /\
       (forall a b, (a < j)%nat -> (b < N)%nat -> Z.abs (M a b) <= Z.abs (M r k)) /\ (forall b, (b < i)%nat -> Z.abs (M j b) <= Z.abs (M r k))).
    match goal with |- context [for_upto 0 N ?f s] => assert (Q : P' N (for_upto 0 N f s)) end.
    { apply (up_inv P'); [lia| |].
      - destruct s as [[p r] c]. destruct Hs as (A & B & C). split; auto. split; auto. split; auto. intros; lia.
      - intros k [[p r] c] Hk (A & B & C & D). cbv beta zeta. rewrite HG, absM. subst p. cbn [ltb t_ops int_ops].
        destruct (Z.ltb_spec (Z.abs (M r c)) (Z.abs (M j k))) as [L|L].
        + split; auto. split; [lia|]. split; [intros a b Ha Hb; specialize (C a b Ha Hb); lia|].
          intros b Hb. destruct (Nat.eq_dec b k) as [->|]; [lia|]. specialize (D b ltac:(lia)). lia.
        + split; auto. split; auto. split; auto. intros b Hb. destruct (Nat.eq_dec b k) as [->|]; [lia|]. apply D. lia. }
    destruct (for_upto 0 N _ s) as [[p r] c]. destruct Q as (A & B & C & D). split; auto. split; auto.
    intros a b Ha Hb. destruct (Nat.eq_dec a j) as [->|]; [apply D; auto|]. apply C; lia. }
  destruct (for_upto 0 N _ _) as [[p r] c]. exact Q.
Qed.
Lemma inverse_pivot_dead : (0 < N)%nat -> (exists i j, (i < N)%nat /\ (j < N)%nat /\ 2 <= Z.abs (M i j)) ->
  exists c, (c < N)%nat /\ dead N c (inverse_pivot fabs N G).
Proof using Ht absM HG.
  intros HN (i0 & j0 & Hi0 & Hj0 & Big). pose proof (first_pivot HN) as F.
  destruct (find_full_pivot fabs N G (fun _ => false)) as [[p r] c] eqn:EF. destruct F as (Ep & [Hr Hc] & Hmax).
  assert (Hbig : 2 <= Z.abs (M r c)) by (specialize (Hmax i0 j0 Hi0 Hj0); lia).
  exists c. split; auto. unfold inverse_pivot.
  set (P := fun s : inv_state (T := option Z) => dead N c (is_m s) /\ is_piv s c = true /\ (forall k, is_rows s k < N /\ is_cols s k < N)%nat).
  assert (HP : P (inverse_loop fabs N G)).
  { unfold inverse_loop.
    pose (P' := fun i s => i = 0%nat /\ s = IS G (fun _ => 0%nat) (fun _ => 0%nat) (fun _ => false) \/ P s).
    assert (Q : P' N (for_upto 0 N (inverse_step fabs N) (IS G (fun _ => 0%nat) (fun _ => 0%nat) (fun _ => false)))).
    { apply (up_inv P'); [lia|left; auto|]. intros i s Hi [[-> ->]|Hs]; right.
      - unfold inverse_step. cbn [is_m is_piv is_rows is_cols]. rewrite EF. unfold P. cbn [is_m is_piv is_rows is_cols]. split; [|split].
        + intros k Hk. rewrite eliminate_row by auto.
          set (A := if Nat.eqb r c then G else swap_rows N r c G) in *.
          change (dead1 (mul (if Nat.eqb k c then Some 1 else A c k) (div (Some 1) (A c c)))).
          assert (E : A c c = Some (M r c)).
          { unfold A. destruct (Nat.eqb_spec r c) as [->|Hn]; auto. rewrite swap_rows_to; auto. }
          rewrite E. apply mul_dead_r. left.
          assert (X : Z.quot 1 (M r c) = 0) by (apply Z.quot_small_iff; [lia|]; change (Z.abs 1) with 1; lia).
          assert (Y : div (Some 1) (Some (M r c)) = lift2 t Z.quot (Some 1) (Some (M r c))).
          { cbn [div t_ops int_ops]. destruct (M r c); [cbn in Hbig; lia|auto|auto]. }
          rewrite Y. cbn [lift2]. rewrite X. apply compute_0.
        + unfold put. rewrite Nat.eqb_refl. reflexivity.
        + intros k. unfold put. destruct (Nat.eqb k 0); lia.
      - destruct Hs as (S1 & S2 & S3). apply step_dead; auto. }
    destruct Q as [[Q _]|Q]; [lia|exact Q]. }
  destruct (inverse_loop fabs N G) as [A rows cols piv]. destruct HP as (D & _ & B). cbn [is_m is_rows is_cols] in *.
  apply (up_inv (fun _ (X : grid) => dead N c X)); [lia|auto|]. intros i X Hi DX.
  destruct (Nat.eqb (rows i) (cols i)); auto. apply swap_cols_dead; auto; apply B.
Qed.
End Pivot.

(** ** LU decomposition after a division by zero *)
Section Det.
Context (fabs : option Z -> option Z) (eps : option Z).
(** rows and columns from 1 on are undefined *)
Definition lost (N : nat) (M : grid) : Prop := forall i j, (1 <= i < N)%nat -> (1 <= j < N)%nat -> M i j = None.
Lemma find_pivot_where N k (M : grid) : (k < N)%nat -> (k <= snd (find_pivot fabs N k M) < N)%nat.
Proof.
  intros Hk. unfold find_pivot. apply (up_inv (fun _ (s : option Z * nat) => (k <= snd s < N)%nat)); [lia|cbn; lia|].
  intros i [mx r] Hi H. destruct (ltb mx (fabs (M i k))); cbn in *; lia.
Qed.
Lemma swap_rows_lost N a b (M : grid) : (1 <= a < N)%nat -> (1 <= b < N)%nat -> lost N M -> lost N (swap_rows N a b M).
Proof.
  intros Ha Hb L. unfold swap_rows. apply (up_inv (fun _ (A : grid) => lost N A)); [lia|exact L|].
  intros i A Hi LA u v Hu Hv. unfold upd.
  destruct (Nat.eqb_spec u b), (Nat.eqb_spec v i), (Nat.eqb_spec u a); cbn [andb]; apply LA; lia.
Qed.
Lemma upd_lost N (B : grid) a b x : lost N B -> (B a b = None -> x = None) -> lost N (upd B a b x).
Proof.
  intros HB Hx u v Hu Hv. unfold upd. destruct (Nat.eqb_spec u a), (Nat.eqb_spec v b); cbn [andb]; subst; auto.
Qed.
Lemma schur_lost N k (M : grid) : lost N M -> lost N (schur N k M).
Proof.
  intros L. unfold schur. destruct (le_lt_dec N (k + 1)) as [H|H]; [unfold for_upto; replace (N - (k + 1))%nat with 0%nat by lia; exact L|].
  apply (up_inv (fun _ (A : grid) => lost N A)); [lia|exact L|]. intros i A Hi LA.
  apply (up_inv (fun _ (B : grid) => lost N B)); [lia| |].
  - apply upd_lost; [exact LA|]. intros ->. destruct (A k k) as [[| |]|]; reflexivity.
  - intros j B Hj LB. apply upd_lost; [exact LB|]. intros ->. reflexivity.
Qed.
Lemma pivot_step_lost N k s : (1 <= k < N)%nat -> lost N (ls_m s) -> lost N (ls_m (lu_pivot_step fabs eps N k s)).
Proof.
  intros Hk L. unfold lu_pivot_step. destruct (ls_stop s); [exact L|].
  pose proof (find_pivot_where N k (ls_m s) ltac:(lia)) as W. destruct (find_pivot fabs N k (ls_m s)) as [mx r]. cbn [snd] in W.
  destruct (ltb mx eps); [exact L|]. cbn [ls_m]. apply schur_lost. destruct (negb (Nat.eqb r k)); [|exact L]. apply swap_rows_lost; auto; lia.
Qed.
Lemma lost_determinant N (M : grid) : (2 <= N)%nat ->
  lost N (ls_m (lu_pivot_step fabs eps N 0 (LUS M (for_upto 0 N (fun i v => put v i i) (fun _ => 0%nat)) false false))) ->
  detN fabs eps N M = None.
Proof.
  intros HN L. unfold detN, lu_pivot_inplace. set (o := for_upto 0 N _ _) in *. clearbody o.
  assert (S1 : lost N (ls_m (for_upto 0 (N - 1) (lu_pivot_step fabs eps N) (LUS M o false false)))).
  { pose (P' := fun i s => i = 0%nat /\ s = LUS M o false false \/ (1 <= i)%nat /\ lost N (ls_m s)).
    assert (Q : P' (N - 1)%nat (for_upto 0 (N - 1) (lu_pivot_step fabs eps N) (LUS M o false false))).
    { apply (up_inv P'); [lia|left; auto|]. intros k s Hk [[-> ->]|[K1 Hs]]; right; (split; [lia|]); [exact L|].
      apply pivot_step_lost; auto; lia. }
    destruct Q as [[Q _]|[_ Q]]; [lia|exact Q]. }
  set (s := for_upto 0 (N - 1) _ _) in *. clearbody s.
  assert (D : diagonal_product N (ls_m s) = None).
  { unfold diagonal_product. pose (P' := fun i (D : option Z) => (1 < i)%nat -> D = None).
    assert (Q : P' N (for_upto 1 N (fun i D => mul D (ls_m s i i)) (ls_m s 0%nat 0%nat))).
    { apply (up_inv P'); [lia|intros ?; lia|]. intros k D Hk _ _. rewrite S1 by lia. destruct D; reflexivity. }
    apply Q. lia. }
  assert (Z0 : forall x : option Z, mul x None = None) by (intros [?|]; reflexivity).
  rewrite D. unfold times_sign. destruct (ls_stop s); [|destruct (ls_odd s)]; apply Z0.
Qed.
Lemma schur_zero N (A : grid) : (2 <= N)%nat -> A 0%nat 0%nat = Some 0 -> lost N (schur N 0 A).
Proof.
  intros HN A0. unfold schur.
  pose (P := fun r (B : grid) => B 0%nat 0%nat = Some 0 /\ forall i j, (1 <= i < r)%nat -> (1 <= j < N)%nat -> B i j = None).
  match goal with |- lost N (for_upto ?l N ?f A) => assert (Q : P N (for_upto l N f A)) end.
  { apply (up_inv P); [lia|split; [exact A0|intros; lia]|]. intros i B Hi [B0 B1].
    rewrite B0. assert (E : div (B i 0%nat) (Some 0) = None) by (destruct (B i 0%nat); reflexivity). rewrite E. clear E.
    pose (P' := fun c (C : grid) => C 0%nat 0%nat = Some 0 /\ C i 0%nat = None /\ (forall r j, (1 <= r < i)%nat -> (1 <= j < N)%nat -> C r j = None) /\
       forall j, (1 <= j < c)%nat -> C i j = None).
    match goal with |- P _ (for_upto ?l N ?f ?s) => assert (Q : P' N (for_upto l N f s)) end.
    { apply (up_inv P'); [lia| |].
      - unfold P', upd. rewrite (proj2 (Nat.eqb_neq 0 i)) by lia. cbn [andb]. rewrite Nat.eqb_refl. cbn [andb Nat.eqb].
        split; [exact B0|split; [reflexivity|split; [|intros; lia]]].
        intros r j Hr Hj. rewrite (proj2 (Nat.eqb_neq r i)) by lia. cbn [andb]. apply B1; auto.
      - intros j C Hj (C0 & Ci & C1 & C2). unfold P', upd. rewrite (proj2 (Nat.eqb_neq 0 i)) by lia. cbn [andb]. rewrite Nat.eqb_refl. cbn [andb].
        rewrite (proj2 (Nat.eqb_neq 0 j)) by lia. rewrite Ci.
        assert (E : sub (C i j) (mul None (C 0%nat j)) = None) by (destruct (C i j); reflexivity). rewrite E. clear E.
        split; [exact C0|split; [reflexivity|split]].
        + intros r v Hr Hv. rewrite (proj2 (Nat.eqb_neq r i)) by lia. cbn [andb]. apply C1; auto.
        + intros v Hv. destruct (Nat.eqb_spec v j); auto. apply C2. lia. }
    destruct Q as (Q0 & _ & Q1 & Q2). split; [exact Q0|]. intros r j Hr Hj. destruct (Nat.eq_dec r i) as [->|]; [apply Q2; lia|apply Q1; lia]. }
  exact (proj2 Q).
Qed.
Lemma zero_column N (M : grid) x : (2 <= N)%nat -> M 0%nat 0%nat = Some x -> x <= 0 -> (forall i, (1 <= i < N)%nat -> M i 0%nat = Some 0) ->
  fabs (Some 0) = Some 0 -> eps = Some 0 -> detN fabs eps N M = None.
Proof.
  intros HN M0 Hx Mi F0 E0. apply lost_determinant; auto. unfold lu_pivot_step. cbn [ls_stop ls_m].
  pose (P := fun i (s : option Z * nat) => snd s = 0%nat /\ fst s = Some x /\ (i = 1%nat \/ x = 0) \/ (1 <= snd s < N)%nat /\ fst s = Some 0).
  assert (Q : P N (find_pivot fabs N 0 M)).
  { unfold find_pivot. apply (up_inv P); [lia|left; cbn; auto|]. intros i [mx r] Hi H. rewrite Mi, F0 by lia. unfold P in H. cbn [fst snd] in H.
    destruct H as [(-> & -> & _)|(Hr & ->)].
    - cbn [ltb t_ops int_ops]. destruct (Z.ltb_spec x 0); [right; cbn; split; [lia|auto]|left; cbn; split; [auto|split; [auto|right; lia]]].
    - right. cbn. auto. }
  destruct (find_pivot fabs N 0 M) as [mx r]. unfold P in Q. cbn [fst snd] in Q.
  assert (X : mx = Some 0 /\ (r < N)%nat /\ M r 0%nat = Some 0).
  { destruct Q as [(A & B & [C|C])|(A & B)]; [lia| |].
    - rewrite A, B, C in *. repeat split; auto. lia.
    - split; [exact B|]. split; [lia|]. apply Mi. lia. }
  destruct X as (-> & Hr & Mr). rewrite E0. cbn [ltb t_ops int_ops]. cbn [Z.ltb Z.compare ls_m].
  apply schur_zero; auto. destruct (Nat.eqb_spec r 0) as [->|Hn]; cbn [negb]; auto.
  rewrite swap_rows_from by (auto; lia). exact Mr.
Qed.
End Det.

(** ** Upper triangular matrices *)
Section Triangular.
Context (fabs : option Z -> option Z) (N : nat) (M : nat -> nat -> Z).
Hypothesis HN : (1 <= N)%nat.
Hypothesis R : forall i j, in_range t (M i j) = true.
Hypothesis F0 : fabs (Some 0) = Some 0.
Hypothesis low : forall i j, (j < i)%nat -> (i < N)%nat -> M i j = 0.
Hypothesis pos : forall i, (i < N)%nat -> 1 <= M i i.
Lemma compute_range z : in_range t z = true -> compute t z = Some z.
Proof using Ht.
  intros H. pose proof wide8 as W. unfold compute. rewrite prom, H, andb_false_r, (convert_id t W); auto.
Qed.
Definition is_M (A : grid) : Prop := forall i j, A i j = Some (M i j).
Lemma upd_M A i j x : is_M A -> x = Some (M i j) -> is_M (upd A i j x).
Proof.
  intros HA -> a b. unfold upd. destruct (Nat.eqb_spec a i), (Nat.eqb_spec b j); cbn [andb]; subst; auto; apply HA.
Qed.
Lemma schur_triangular k A : (k < N)%nat -> is_M A -> is_M (schur N k A).
Proof using All.
  intros Hk HA. unfold schur. destruct (le_lt_dec N (k + 1)) as [H|H]; [unfold for_upto; replace (N - (k + 1))%nat with 0%nat by lia; exact HA|].
  apply (up_inv (fun _ A => is_M A)); [lia|exact HA|]. intros i B Hi HB.
  apply (up_inv (fun _ A => is_M A)); [lia| |].
  - apply upd_M; auto. rewrite !HB, (low i k) by lia. pose proof (pos k Hk). cbn [div t_ops int_ops].
    destruct (M k k); try lia. cbn [lift2]. rewrite Z.quot_0_l by lia. apply compute_0.
  - intros j C Hj HC. apply upd_M; auto. rewrite !HC. rewrite (low i k) by lia. cbn [sub mul t_ops int_ops lift2].
    rewrite Z.mul_0_l, compute_0. cbn [lift2]. rewrite Z.sub_0_r. apply compute_range, R.
Qed.
Lemma step_triangular k A o : (k < N)%nat -> is_M A -> exists A', is_M A' /\ lu_pivot_step fabs (Some 0) N k (LUS A o false false) = LUS A' o false false.
Proof using All.
  intros Hk HA. unfold lu_pivot_step. cbn [ls_stop ls_m ls_order ls_odd].
  assert (P : find_pivot fabs N k A = (Some (M k k), k)).
  { unfold find_pivot. rewrite HA. destruct (le_lt_dec N (k + 1)) as [H|H]; [unfold for_upto; replace (N - (k + 1))%nat with 0%nat by lia; reflexivity|].
    apply (up_inv (fun _ s => s = (Some (M k k), k))); [lia|auto|]. intros i s Hi ->. rewrite HA, (low i k), F0 by lia.
    cbn [ltb t_ops int_ops]. pose proof (pos k Hk). destruct (Z.ltb_spec (M k k) 0); [lia|reflexivity]. }
  rewrite P. cbn [ltb t_ops int_ops]. pose proof (pos k Hk). destruct (Z.ltb_spec (M k k) 0); [lia|].
  rewrite Nat.eqb_refl. cbn [negb]. eexists. split; [|reflexivity]. apply schur_triangular; auto.
Qed.
Lemma zprod_pos n : (n <= N)%nat -> 1 <= zprod n (fun i => M i i).
Proof using HN pos. induction n as [|n IH]; intros H; cbn; [lia|]. specialize (IH ltac:(lia)). specialize (pos n ltac:(lia)). nia. Qed.
Lemma zprod_le n m : (n <= m)%nat -> (m <= N)%nat -> zprod n (fun i => M i i) <= zprod m (fun i => M i i).
Proof using HN pos.
  intros H Hm. induction H as [|m H IH]; [lia|]. cbn. specialize (IH ltac:(lia)). pose proof (zprod_pos m ltac:(lia)). pose proof (pos m ltac:(lia)). nia.
Qed.
Lemma det_triangular G : is_M G -> zprod N (fun i => M i i) <= hi t -> detN fabs (Some 0) N G = Some (zprod N (fun i => M i i)).
Proof using All.
  intros HG Hp. assert (Rz : forall n, (n <= N)%nat -> in_range t (zprod n (fun i => M i i)) = true).
  { intros n Hn. unfold in_range. apply andb_true_iff. split; apply Z.leb_le.
    - pose proof (zprod_pos n Hn). pose proof (proj1 (zero_one_range t wide8)) as Z0. unfold in_range in Z0. apply andb_true_iff in Z0. destruct Z0 as [Z0 _]. apply Z.leb_le in Z0. lia.
    - pose proof (zprod_le n N Hn (le_n N)). lia. }
  unfold detN, lu_pivot_inplace. set (o := for_upto 0 N _ _).
  assert (Q : exists A, is_M A /\ for_upto 0 (N - 1) (lu_pivot_step fabs (Some 0) N) (LUS G o false false) = LUS A o false false).
  { apply (up_inv (fun _ s => exists A, is_M A /\ s = LUS A o false false)); [lia|exists G; auto|].
    intros k s Hk (A & HA & ->). apply step_triangular; auto. lia. }
  destruct Q as (A & HA & ->). cbn [ls_m ls_order ls_stop ls_odd].
  assert (D : diagonal_product N A = Some (zprod N (fun i => M i i))).
  { unfold diagonal_product. apply (up_inv (fun n D => D = Some (zprod n (fun i => M i i)))); [lia|rewrite HA; cbn [zprod]; f_equal; lia|].
    intros k D Hk ->. rewrite HA. cbn [mul t_ops int_ops lift2]. rewrite Nat.add_1_r. cbn [zprod]. apply compute_range. apply (Rz (S k)). lia. }
  rewrite D. cbn [times_sign one mul t_ops int_ops lift2]. rewrite Z.mul_1_l. apply compute_range. apply Rz. lia.
Qed.
End Triangular.
End Type_t.
