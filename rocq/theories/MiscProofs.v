(** Proofs about MiscModel.v. *)
From Coq Require Import List ZArith Bool Arith Lia.
From Verif Require Import Base BaseFacts MiscModel MiscSpec.
Import ListNotations.

(** ** Comparison *)
Section Cmp.
Context {T : Type} {Op : Ops T}.
Implicit Types l r : list T.

Lemma v_gt_flip_l l r : (forall x y : T, ltb x y = true -> ltb y x = false) -> v_gt l r = v_lt r l.
Proof.
  intros As. unfold v_gt, v_lt.
  assert (E : forall l r, first_diff r l = option_map negb (first_diff l r)).
  { induction l0 as [|x l0 IH]; intros [|y r0]; simpl; auto.
    destruct (ltb x y) eqn:A; simpl.
    - now rewrite (As _ _ A).
    - destruct (ltb y x); simpl; auto. }
  rewrite (E l r). destruct (first_diff l r) as [b|]; simpl; auto.
Qed.

Hypothesis TO : total_order T.
Lemma irr x : ltb x x = false. Proof using TO. apply TO. Qed.
Lemma tri x y : ltb x y = false -> ltb y x = false -> x = y. Proof using TO. apply TO. Qed.
Lemma trans x y z : ltb x y = true -> ltb y z = true -> ltb x z = true. Proof using TO. apply TO. Qed.
Lemma asym x y : ltb x y = true -> ltb y x = false.
Proof using TO.
  intros H. destruct (ltb y x) eqn:E; auto. assert (Q := trans _ _ _ H E). now rewrite irr in Q.
Qed.
Lemma v_lt_lex_l l r : v_lt l r = true <-> lex_lt l r.
Proof using TO.
  revert r; induction l as [|x l IH]; intros [|y r]; unfold v_lt in *; simpl.
  - split; [discriminate|inversion 1].
  - split; [constructor|reflexivity].
  - split; [discriminate|inversion 1].
  - destruct (ltb x y) eqn:A.
    + split; auto. intros _. now apply lex_head.
    + destruct (ltb y x) eqn:B.
      * split; [discriminate|]. inversion 1; subst; [congruence|]. rewrite irr in B. discriminate.
      * assert (x = y) by (apply tri; auto). subst. specialize (IH r).
        change (Nat.ltb (S (length l)) (S (length r))) with (Nat.ltb (length l) (length r)).
        rewrite IH. split; [now apply lex_tail|]. inversion 1; subst; auto. congruence.
Qed.
Lemma v_eq_l l r : v_eq l r = true <-> l = r.
Proof using TO.
  revert r; induction l as [|x l IH]; intros [|y r]; unfold v_eq in *; simpl; try (split; congruence).
  destruct (ltb x y) eqn:A; [|destruct (ltb y x) eqn:B].
  - split; [destruct (Nat.eqb _ _); discriminate|]. intros [= -> ->]. rewrite irr in A. discriminate.
  - split; [destruct (Nat.eqb _ _); discriminate|]. intros [= -> ->]. rewrite irr in B. discriminate.
  - rewrite IH. rewrite (tri _ _ A B). split; congruence.
Qed.
Lemma lex_irr l : ~ lex_lt l l.
Proof using TO. induction l; inversion 1; subst; auto. rewrite irr in *. discriminate. Qed.
Lemma lex_trans a b c : lex_lt a b -> lex_lt b c -> lex_lt a c.
Proof using TO.
  intros H; revert c; induction H; intros c Hc; inversion Hc; subst;
    first [now apply lex_tail; auto | apply lex_head; auto; now eapply trans; eauto | apply lex_nil].
Qed.
Lemma lex_total a b : lex_lt a b \/ a = b \/ lex_lt b a.
Proof using TO.
  revert b; induction a as [|x a IH]; intros [|y b]; auto; try (left; now constructor); try (right; right; now constructor).
  destruct (ltb x y) eqn:A; [left; now apply lex_head|].
  destruct (ltb y x) eqn:B; [right; right; now apply lex_head|].
  rewrite (tri _ _ A B). destruct (IH b) as [|[->|]]; auto using lex_tail.
Qed.
End Cmp.

(** ** Words *)
Open Scope Z_scope.
Lemma mul_word_inj w c ci a b : 0 < w -> (c * ci) mod w = 1 mod w ->
  0 <= a < w -> 0 <= b < w -> (a * c) mod w = (b * c) mod w -> a = b.
Proof.
  intros Hw Hc Ha Hb E.
  assert (Q : forall x, 0 <= x < w -> ((x * c) mod w * ci) mod w = x).
  { intros x Hx. rewrite Z.mul_mod_idemp_l by lia. rewrite <- Z.mul_assoc, Z.mul_mod, Hc by lia.
    rewrite <- Z.mul_mod by lia. rewrite Z.mul_1_r. now apply Z.mod_small. }
  rewrite <- (Q a Ha), <- (Q b Hb), E. reflexivity.
Qed.
Lemma add_word_inj w c a b : 0 < w -> 0 <= a < w -> 0 <= b < w -> (a + c) mod w = (b + c) mod w -> a = b.
Proof.
  intros Hw Ha Hb E.
  assert (Q : forall x, 0 <= x < w -> ((x + c) mod w - c) mod w = x).
  { intros x Hx. rewrite Zminus_mod_idemp_l. replace (x + c - c) with x by ring. now apply Z.mod_small. }
  rewrite <- (Q a Ha), <- (Q b Hb), E. reflexivity.
Qed.
Lemma testbit_small n a i : 0 <= n -> 0 <= a < 2 ^ n -> n <= i -> Z.testbit a i = false.
Proof.
  intros Hn Ha Hi. destruct (Z.eq_dec a 0) as [->|]; [apply Z.bits_0|].
  apply Z.bits_above_log2; [lia|]. apply Z.lt_le_trans with n; auto. apply Z.log2_lt_pow2; lia.
Qed.
Lemma word_bound n a : 0 <= n -> 0 <= a -> (forall i, n <= i -> Z.testbit a i = false) -> a < 2 ^ n.
Proof.
  intros Hn Ha H. destruct (Z.eq_dec a 0) as [->|]; [apply Z.pow_pos_nonneg; lia|].
  apply Z.log2_lt_pow2; [lia|]. destruct (Z.lt_ge_cases (Z.log2 a) n); auto.
  assert (Q := H (Z.log2 a) H0). rewrite Z.bit_log2 in Q by lia. discriminate.
Qed.
Lemma lxor_word n a b : 0 <= n -> 0 <= a < 2 ^ n -> 0 <= b < 2 ^ n -> 0 <= Z.lxor a b < 2 ^ n.
Proof.
  intros Hn Ha Hb. assert (0 <= Z.lxor a b) by (apply Z.lxor_nonneg; lia). split; auto.
  apply word_bound; auto. intros i Hi. rewrite Z.lxor_spec.
  now rewrite !(testbit_small n) by auto.
Qed.
Lemma lxor_inj a b c : Z.lxor a b = Z.lxor a c -> b = c.
Proof.
  intros H. assert (Q : Z.lxor a (Z.lxor a b) = Z.lxor a (Z.lxor a c)) by now rewrite H.
  now rewrite <- !Z.lxor_assoc, !Z.lxor_nilpotent, !Z.lxor_0_l in Q.
Qed.
Lemma rotl32_bits x r i : 0 < r < 32 -> 0 <= x < 2 ^ 32 -> 0 <= i ->
  Z.testbit (rotl32 x r) i =
  if i <? 32 then Z.testbit x (if i <? r then i + 32 - r else i - r) else false.
Proof.
  intros Hr Hx Hi. unfold rotl32. rewrite Z.lor_spec, Z.shiftr_spec by lia.
  destruct (Z.ltb_spec i 32).
  - rewrite Z.mod_pow2_bits_low, Z.shiftl_spec by lia. destruct (Z.ltb_spec i r).
    + rewrite Z.testbit_neg_r by lia. rewrite orb_false_l. f_equal. lia.
    + rewrite (testbit_small 32 x (i + (32 - r))) by lia. apply orb_false_r.
  - rewrite Z.mod_pow2_bits_high by lia. rewrite (testbit_small 32 x) by lia. reflexivity.
Qed.
Lemma rotl32_word x r : 0 < r < 32 -> 0 <= x < 2 ^ 32 -> 0 <= rotl32 x r < 2 ^ 32.
Proof.
  intros Hr Hx. assert (0 <= rotl32 x r).
  { unfold rotl32. apply Z.lor_nonneg. split; [apply Z.mod_pos_bound; lia|apply Z.shiftr_nonneg; lia]. }
  split; auto. apply word_bound; [lia|auto|]. intros i Hi. rewrite rotl32_bits by lia.
  destruct (Z.ltb_spec i 32); auto; lia.
Qed.
Lemma rotl32_inj x y r : 0 < r < 32 -> 0 <= x < 2 ^ 32 -> 0 <= y < 2 ^ 32 -> rotl32 x r = rotl32 y r -> x = y.
Proof.
  intros Hr Hx Hy E. apply Z.bits_inj'. intros i Hi.
  destruct (Z.ltb_spec i 32); [|now rewrite !(testbit_small 32) by lia].
  assert (Q : forall z, 0 <= z < 2 ^ 32 -> Z.testbit z i = Z.testbit (rotl32 z r) (if i <? 32 - r then i + r else i + r - 32)).
  { intros z Hz. rewrite rotl32_bits; auto; [|destruct (Z.ltb_spec i (32 - r)); lia].
    destruct (Z.ltb_spec i (32 - r)).
    - destruct (Z.ltb_spec (i + r) 32); [|lia]. destruct (Z.ltb_spec (i + r) r); [lia|]. f_equal. lia.
    - destruct (Z.ltb_spec (i + r - 32) 32); [|lia]. destruct (Z.ltb_spec (i + r - 32) r); [|lia]. f_equal. lia. }
  now rewrite (Q x Hx), (Q y Hy), E.
Qed.
Lemma xorshift_inj n r x y : 0 < r -> 0 <= n -> 0 <= x < 2 ^ n -> 0 <= y < 2 ^ n ->
  Z.lxor x (Z.shiftr x r) = Z.lxor y (Z.shiftr y r) -> x = y.
Proof.
  intros Hr Hn Hx Hy E. apply Z.bits_inj'.
  assert (G : forall k : nat, forall i, 0 <= i -> n - i <= Z.of_nat k -> Z.testbit x i = Z.testbit y i).
  { induction k as [|k IH]; intros i Hi Hk.
    - now rewrite !(testbit_small n) by lia.
    - assert (Q : Z.testbit (Z.lxor x (Z.shiftr x r)) i = Z.testbit (Z.lxor y (Z.shiftr y r)) i) by now rewrite E.
      rewrite !Z.lxor_spec, !Z.shiftr_spec in Q by lia. rewrite (IH (i + r)) in Q by lia.
      destruct (Z.testbit x i), (Z.testbit y i), (Z.testbit y (i + r)); simpl in Q; auto; discriminate. }
  intros i Hi. apply (G (Z.to_nat n) i); lia.
Qed.
Lemma mod_word w x : 0 < w -> 0 <= x mod w < w. Proof. intros. now apply Z.mod_pos_bound. Qed.

Lemma combine32_l h k : word 32 h -> word 32 k -> word 32 (combine32 h k) /\
  (forall k', word 32 k' -> combine32 h k = combine32 h k' -> k = k') /\
  (forall h', word 32 h' -> combine32 h k = combine32 h' k -> h = h').
Proof.
  intros Hh Hk. split; [apply mod_word; lia|].
  assert (K : forall k, word 32 k -> word 32 (rotl32 ((k * 0xcc9e2d51) mod 2 ^ 32) 15 * 0x1b873593 mod 2 ^ 32))
    by (intros; apply mod_word; lia).
  assert (H : forall h k, word 32 h -> word 32 k -> word 32 (rotl32 (Z.lxor h (rotl32 ((k * 0xcc9e2d51) mod 2 ^ 32) 15 * 0x1b873593 mod 2 ^ 32)) 13)).
  { intros h0 k0 H1 H2. apply rotl32_word; [lia|]. apply lxor_word; [lia|auto|apply K; auto]. }
  assert (Inj : forall h1 k1 h2 k2, word 32 h1 -> word 32 k1 -> word 32 h2 -> word 32 k2 ->
     combine32 h1 k1 = combine32 h2 k2 ->
     Z.lxor h1 (rotl32 ((k1 * 0xcc9e2d51) mod 2 ^ 32) 15 * 0x1b873593 mod 2 ^ 32) =
     Z.lxor h2 (rotl32 ((k2 * 0xcc9e2d51) mod 2 ^ 32) 15 * 0x1b873593 mod 2 ^ 32)).
  { intros h1 k1 h2 k2 A1 A2 A3 A4 E. unfold combine32 in E.
    rewrite <- (Zplus_mod_idemp_l (_ * 5)) in E. rewrite <- (Zplus_mod_idemp_l (rotl32 (Z.lxor h2 _) _ * 5)) in E.
    apply add_word_inj in E; try lia; try (apply mod_word; lia).
    apply (mul_word_inj _ _ 0xcccccccd) in E; try lia; try reflexivity; try (apply H; auto).
    apply rotl32_inj in E; auto; try lia; apply lxor_word; try lia; try apply K; auto. }
  split.
  - intros k' Hk' E. apply Inj in E; auto. apply lxor_inj in E.
    apply (mul_word_inj _ _ 0x56ed309b) in E; try lia; try reflexivity;
      try (apply rotl32_word; [lia|apply mod_word; lia]).
    apply rotl32_inj in E; try lia; try (apply mod_word; lia).
    apply (mul_word_inj _ _ 0xdee13bb1) in E; auto; try lia; reflexivity.
  - intros h' Hh' E. apply Inj in E; auto. rewrite !(Z.lxor_comm _ (_ mod _)) in E. now apply lxor_inj in E.
Qed.

Lemma combine64_l h k : word 64 h -> word 64 k -> word 64 (combine64 h k) /\
  (forall k', word 64 k' -> combine64 h k = combine64 h k' -> k = k') /\
  (forall h', word 64 h' -> combine64 h k = combine64 h' k -> h = h').
Proof.
  intros Hh Hk. split; [apply mod_word; lia|].
  set (m := 0xc6a4a7935bd1e995).
  assert (Hm : (m * 0x5f7a0ea7e59b19bd) mod 2 ^ 64 = 1 mod 2 ^ 64) by reflexivity.
  set (g := fun k => (Z.lxor ((k * m) mod 2 ^ 64) (Z.shiftr ((k * m) mod 2 ^ 64) 47) * m) mod 2 ^ 64).
  assert (K : forall k, word 64 (g k)) by (intros; apply mod_word; lia).
  assert (X : forall x, word 64 x -> word 64 (Z.lxor x (Z.shiftr x 47))).
  { intros x Hx. apply lxor_word; [lia|auto|]. unfold word in Hx. rewrite Z.shiftr_div_pow2 by lia. split.
    - apply Z.div_pos; lia.
    - apply Z.le_lt_trans with x; [|lia]. apply Z.div_le_upper_bound; lia. }
  assert (Inj : forall h1 k1 h2 k2, word 64 h1 -> word 64 h2 ->
     combine64 h1 k1 = combine64 h2 k2 -> Z.lxor h1 (g k1) = Z.lxor h2 (g k2)).
  { intros h1 k1 h2 k2 A1 A2 E. unfold combine64 in E.
    apply add_word_inj in E; try lia; try (apply mod_word; lia).
    apply (mul_word_inj (2 ^ 64) _ _ _ _ eq_refl Hm) in E; auto; apply lxor_word; try lia; auto; apply K. }
  split.
  - intros k' Hk' E. apply Inj in E; auto. apply lxor_inj in E. unfold g in E.
    apply (mul_word_inj (2 ^ 64) _ _ _ _ eq_refl Hm) in E; try (apply X; apply mod_word; lia).
    apply (xorshift_inj 64) in E; try lia; try (apply mod_word; lia).
    apply (mul_word_inj (2 ^ 64) _ _ _ _ eq_refl Hm) in E; auto.
  - intros h' Hh' E. apply Inj in E; auto. rewrite !(Z.lxor_comm _ (g _)) in E. now apply lxor_inj in E.
Qed.

Lemma hash_differ_l w combine :
  (forall h k, word w h -> word w k -> word w (combine h k) /\
    (forall k', word w k' -> combine h k = combine h k' -> k = k') /\
    (forall h', word w h' -> combine h k = combine h' k -> h = h')) ->
  forall p a b s, 0 <= w -> Forall (word w) (p ++ a :: b :: s) -> a <> b ->
  vector_hash combine (p ++ a :: s) <> vector_hash combine (p ++ b :: s).
Proof.
  intros C p a b s Hw F Hab. unfold vector_hash. rewrite !fold_left_app. simpl.
  apply Forall_app in F. destruct F as [Fp F]. inversion F; subst. inversion H2; subst.
  assert (W : forall l h, Forall (word w) l -> word w h -> word w (fold_left combine l h)).
  { induction l; intros h Fl Hh; simpl; auto. inversion Fl; subst. apply IHl; auto. now apply C. }
  assert (W0 : word w (fold_left combine p 0)).
  { apply W; auto. split; [lia|]. apply Z.pow_pos_nonneg; lia. }
  assert (G : forall l h h', Forall (word w) l -> word w h -> word w h' ->
     fold_left combine l h = fold_left combine l h' -> h = h').
  { induction l as [|x l IH]; intros h h' Fl Hh Hh' E; simpl in *; auto. inversion Fl; subst.
    apply IH in E; auto; try (apply C; auto). apply (C h x) in E; auto. }
  intros E. apply G in E; auto; try (apply C; auto). apply (C _ a) in E; auto.
Qed.
