From Coq Require Import List Bool Arith Lia Ring Field.
From Verif Require Import Base QuatModel QuatSpec MiscModel MiscSpec MiscProofs.
Import ListNotations.

Lemma quat_ext {T} (p q : quat T) : (forall i, i < 4 -> qget p i = qget q i) -> p = q.
Proof.
  intros H. destruct p, q. f_equal.
  - apply (H 0); lia. - apply (H 1); lia. - apply (H 2); lia. - apply (H 3); lia.
Qed.
Ltac cases4 i := destruct i as [|[|[|[|i]]]]; [| | | |exfalso; lia].

Section NoLaws.
Context {T : Type} `{Op : Ops T} `{MO : MathOps T}.
(** An element of a node reads only the same element of the target. *)
Lemma nget_local o (p q : quat T) n i : qget p i = qget q i -> nget o p n i = nget o q n i.
Proof. intros E. induction n; simpl; rewrite ?IHn, ?IHn1, ?IHn2; auto. Qed.
Lemma assign_old o c e (q : quat T) i : i < 4 -> qget (q_assign o c e q) i = nget o q (build o c q e) i.
Proof.
  intros H. unfold q_assign. set (n := build o c q e). clearbody n.
  destruct o; unfold assign_get; cases4 i; simpl; apply nget_local; reflexivity.
Qed.
Lemma compound_old o c op e (q : quat T) i : i < 4 ->
  qget (q_compound o c op e q) i = ap op (qget q i) (nget o q (build o c q e) i).
Proof.
  intros H. unfold q_compound. set (n := build o c q e). clearbody n.
  destruct o; unfold compound_get, for4; cases4 i; simpl; f_equal; apply nget_local; reflexivity.
Qed.
Lemma scale_val op s (q : quat T) i : i < 4 -> qget (q_scale op (RVal s) q) i = aps op (qget q i) s.
Proof. intros H. cases4 i; reflexivity. Qed.
Lemma scale_own op k (q : quat T) i : i < 4 -> k < 4 ->
  qget (q_scale op (ROwn k) q) i =
  aps op (qget q i) (if Nat.leb i k then qget q k else aps op (qget q k) (qget q k)).
Proof. intros H K. cases4 k; cases4 i; reflexivity. Qed.
Lemma mul_eq_old o c e (q : quat T) :
  q_mul_eq o c e q = q_mul o c (qget q) (nget o q (build o c q e)).
Proof. apply quat_ext. intros i Hi. destruct o; cases4 i; reflexivity. Qed.
Lemma conj_in_place o (q : quat T) i : i < 4 ->
  qget (q_conjugate o q) i = if Nat.eqb i (oW o) then qget q i else neg (qget q i).
Proof. intros H. destruct o; cases4 i; reflexivity. Qed.
Lemma q_mul_parts o c (g h : nat -> T) : parts o (q_mul o c g h) =
  Ham (sub (mul (g (oW o)) (h (oW o))) (dot3 (imag o g) (imag o h)))
      (add (add (mul (h (oX o)) (g (oW o))) (mul (g (oX o)) (h (oW o))))
           (match c with positive_cross => cross3 (imag o g) (imag o h) 0 | negative_cross => cross3 (imag o h) (imag o g) 0 end))
      (add (add (mul (h (oY o)) (g (oW o))) (mul (g (oY o)) (h (oW o))))
           (match c with positive_cross => cross3 (imag o g) (imag o h) 1 | negative_cross => cross3 (imag o h) (imag o g) 1 end))
      (add (add (mul (h (oZ o)) (g (oW o))) (mul (g (oZ o)) (h (oW o))))
           (match c with positive_cross => cross3 (imag o g) (imag o h) 2 | negative_cross => cross3 (imag o h) (imag o g) 2 end)).
Proof. destruct o, c; reflexivity. Qed.
Lemma parts_inj o (p q : quat T) : parts o p = parts o q -> p = q.
Proof. destruct p, q, o; unfold parts, parts_of; simpl; congruence. Qed.
Lemma parts_onto o (h : ham T) : exists q, parts o q = h.
Proof.
  destruct h as [w x y z], o; [exists (Quat w x y z)|exists (Quat x y z w)]; reflexivity.
Qed.
End NoLaws.

Section Rings.
Context {T : Type} `{Op : Ops T}.
Hypothesis RT : ring_theory (zero : T) one add mul sub neg eq.
Add Ring TR : RT.

Lemma ham_eq (a b : ham T) : hw a = hw b -> hx a = hx b -> hy a = hy b -> hz a = hz b -> @eq (ham T) a b.
Proof. destruct a, b; simpl; congruence. Qed.
Ltac ham := apply ham_eq; simpl; ring.

Lemma q_mul_ok o c (g h : nat -> T) : @eq (ham T) (parts o (q_mul o c g h)) (hprod c (parts_of o g) (parts_of o h)).
Proof using RT.
  rewrite q_mul_parts. destruct c; unfold hprod, hmul, parts_of, dot3, cross3, imag; destruct o; ham.
Qed.
Lemma norm_ok o (g : nat -> T) : norm_of g = hnorm (parts_of o g).
Proof using RT. destruct o; unfold norm_of, hnorm, parts_of; simpl; ring. Qed.
Lemma parts_ext o (f g : nat -> T) : (forall i, i < 4 -> f i = g i) -> @eq (ham T) (parts_of o f) (parts_of o g).
Proof. intros H. unfold parts_of. destruct o; simpl; rewrite !H by lia; reflexivity. Qed.

Lemma denote_ok `{MO : MathOps T} o c (self : quat T) e :
  @eq (ham T) (parts_of o (nget o self (build o c self e))) (denote c (parts o self) (parts o) e).
Proof using RT.
  induction e; simpl; rewrite <- ?IHe, <- ?IHe1, <- ?IHe2.
  - reflexivity.
  - reflexivity.
  - destruct o; reflexivity.
  - destruct o, op; reflexivity.
  - destruct o, op; reflexivity.
  - destruct o; reflexivity.
  - rewrite (norm_ok o). destruct o; reflexivity.
  - unfold length_of. rewrite (norm_ok o). destruct o; reflexivity.
  - apply q_mul_ok.
Qed.

(** Hamilton's algebra *)
Lemma hmul_assoc (a b c : ham T) : @eq (ham T) (hmul (hmul a b) c) (hmul a (hmul b c)).
Proof using RT. ham. Qed.
Lemma hmul_add_r (a b c : ham T) : @eq (ham T) (hmul a (hmap2 add b c)) (hmap2 add (hmul a b) (hmul a c)).
Proof using RT. ham. Qed.
Lemma hmul_add_l (a b c : ham T) : @eq (ham T) (hmul (hmap2 add a b) c) (hmap2 add (hmul a c) (hmul b c)).
Proof using RT. ham. Qed.
Lemma hmul_one_l (a : ham T) : @eq (ham T) (hmul hone a) a. Proof using RT. ham. Qed.
Lemma hmul_one_r (a : ham T) : @eq (ham T) (hmul a hone) a. Proof using RT. ham. Qed.
Lemma hnorm_mul (a b : ham T) : hnorm (hmul a b) = mul (hnorm a) (hnorm b).
Proof using RT. unfold hnorm; simpl; ring. Qed.
Lemma hconj_mul (a b : ham T) : @eq (ham T) (hconj (hmul a b)) (hmul (hconj b) (hconj a)).
Proof using RT. ham. Qed.
Lemma hmul_conj_r (a : ham T) : @eq (ham T) (hmul a (hconj a)) (hscale (hnorm a) hone).
Proof using RT. apply ham_eq; unfold hnorm; simpl; ring. Qed.
Lemma hmul_conj_l (a : ham T) : @eq (ham T) (hmul (hconj a) a) (hscale (hnorm a) hone).
Proof using RT. apply ham_eq; unfold hnorm; simpl; ring. Qed.
Lemma hmul_scale_r s (a b : ham T) : @eq (ham T) (hmul a (hscale s b)) (hscale s (hmul a b)).
Proof using RT. ham. Qed.
Lemma hmul_scale_l s (a b : ham T) : @eq (ham T) (hmul (hscale s a) b) (hscale s (hmul a b)).
Proof using RT. ham. Qed.
Lemma hscale_scale s t (a : ham T) : @eq (ham T) (hscale s (hscale t a)) (hscale (mul s t) a).
Proof using RT. ham. Qed.
Lemma hscale_1 (a : ham T) : @eq (ham T) (hscale one a) a. Proof using RT. ham. Qed.
End Rings.

Section Order.
Context {T : Type} `{Op : Ops T}.
Definition els (q : quat T) : list T := [q0 q; q1 q; q2 q; q3 q].
Lemma els_inj p q : els p = els q -> p = q.
Proof. destruct p, q; unfold els; simpl; congruence. Qed.
Lemma q_lt_v p q : q_lt p q = v_lt (els p) (els q).
Proof.
  unfold q_lt, v_lt, els. simpl.
  repeat match goal with |- context [ltb ?a ?b] => destruct (ltb a b); auto end.
Qed.
Hypothesis TO : total_order T.
Lemma q_gt_flip p q : q_gt p q = q_lt q p.
Proof using TO.
  unfold q_gt, q_lt. simpl.
  repeat match goal with |- context [ltb ?a ?b] => destruct (ltb a b) end; reflexivity.
Qed.
Lemma q_lt_lex p q : q_lt p q = true <-> lex_lt (els p) (els q).
Proof using TO. rewrite q_lt_v. apply (v_lt_lex_l TO). Qed.
Lemma q_eq_l p q : (forall x y : T, eqb x y = true <-> x = y) -> q_eq p q = true <-> p = q.
Proof.
  intros E. unfold q_eq. rewrite !andb_true_iff, !E. split; [|now intros ->].
  intros (((A & B) & C) & D). apply quat_ext. intros i Hi. cases4 i; auto.
Qed.
End Order.
