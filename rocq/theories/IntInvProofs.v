(** Inverses and determinants of integer matrices. *)
From Coq Require Import ZArith Bool List Arith Lia.
From Verif Require Import Base ZInst MatModel LUModel Formula IntModel PropInt IntInvSpec.
Import ListNotations.
Open Scope Z_scope.

Section Type_t.
Context (t : ity) (Ht : bits int_t <= bits t).
#[local] Instance t_ops : Ops (option Z) := int_ops t.

Lemma wide8 : 8 <= bits t. Proof using Ht. change (bits int_t) with 32 in Ht. lia. Qed.
Lemma prom : promoted t = t.
Proof using Ht. unfold promoted. destruct (Z.ltb_spec (bits t) (bits int_t)); [lia|auto]. Qed.
Lemma trap : signed t = true -> trapping t = true.
Proof using Ht. intros S. unfold trapping. rewrite S, (proj2 (Z.leb_le _ _) Ht). reflexivity. Qed.
Lemma compute_signed z r : signed t = true -> compute t z = Some r -> r = z /\ in_range t z = true.
Proof using Ht.
  intros S H. unfold compute in H. rewrite prom, S in H. destruct (in_range t z) eqn:R; [|discriminate].
  cbn in H. injection H as <-. split; auto. apply convert_id; auto. apply wide8.
Qed.
Lemma compute_unsigned z : signed t = false -> compute t z = Some (z mod 2 ^ bits t).
Proof using Ht.
  intros S. unfold compute. rewrite prom, S. cbn [andb]. f_equal. unfold convert, lo. rewrite S. rewrite Z.sub_0_r, Z.add_0_r. reflexivity.
Qed.
Lemma pow_pos : 0 < 2 ^ bits t. Proof using Ht. apply Z.pow_pos_nonneg; pose proof wide8; lia. Qed.

Lemma outcome_unsigned x e : signed t = false -> outcome t x e -> x = Some (e mod 2 ^ bits t).
Proof using Ht.
  intros S H. destruct x as [z|]; cbn [outcome] in H.
  - destruct H as (R & M & _). f_equal. rewrite <- M. symmetry. apply Z.mod_small.
    apply (in_range_spec t) in R. unfold lo, hi in R. rewrite S in R. lia.
  - exfalso. unfold wrapping in H. destruct (Z.ltb_spec (bits t) (bits int_t)); [lia|]. rewrite S in H. discriminate.
Qed.
Lemma div_quotient x y a d : outcome t x a -> outcome t y d -> quotient_outcome t (div x y) a d.
Proof using Ht.
  intros X Y. unfold quotient_outcome. destruct (signed t) eqn:S.
  - pose proof (trap S) as T. cbn [div t_ops int_ops]. split.
    + intros ->. destruct y as [y|]; cbn [outcome] in Y.
      * destruct Y as (_ & _ & Y). rewrite (Y T). reflexivity.
      * destruct x; reflexivity.
    + intros z H. destruct y as [y|]; [|destruct x; discriminate]. destruct Y as (_ & _ & Y). rewrite (Y T) in *.
      destruct x as [x|]; [|destruct d; discriminate]. destruct X as (_ & _ & X). rewrite (X T) in *.
      assert (Dz : d <> 0) by (intros ->; discriminate). split; auto.
      assert (H' : compute t (Z.quot a d) = Some z) by (destruct d; [congruence|exact H|exact H]).
      apply compute_signed in H'; auto. tauto.
  - apply (outcome_unsigned _ _ S) in X, Y. subst x y. cbn [div t_ops int_ops].
    destruct (Z.eqb_spec (d mod 2 ^ bits t) 0) as [E|E]; [rewrite E; reflexivity|].
    pose proof (Z.mod_pos_bound a _ pow_pos) as A. pose proof (Z.mod_pos_bound d _ pow_pos) as D.
    set (a' := a mod 2 ^ bits t) in *. set (d' := d mod 2 ^ bits t) in *.
    assert (H : forall o : option Z, match Some d' with Some 0 => None | _ => o end = o) by (intros o; destruct d'; [congruence|reflexivity|reflexivity]).
    rewrite H. cbn [lift2]. rewrite compute_unsigned by auto. f_equal.
    rewrite Z.quot_div_nonneg by lia. apply Z.mod_small. split; [apply Z.div_pos; lia|].
    apply Z.le_lt_trans with a'; [|lia]. apply Z.div_le_upper_bound; [lia|]. nia.
Qed.

Lemma entry_ok n (G : nat -> nat -> option Z) (M : nat -> nat -> Z) q ea ed a d :
  (forall i j, G i j = Some (M i j)) -> q = feval (fun k => G (k / n)%nat (k mod n)%nat) (FOther ea ed) -> plain ea -> plain ed ->
  (forall i j, in_range t (M i j) = true) ->
  feval (T:=Z) (fun k => M (k / n)%nat (k mod n)%nat) ea = a -> feval (T:=Z) (fun k => M (k / n)%nat (k mod n)%nat) ed = d ->
  (forall B, 1 <= B -> zpeak B ea <= Z.of_nat (fact n) * B ^ Z.of_nat n /\ zpeak B ed <= Z.of_nat (fact n) * B ^ Z.of_nat n /\ zsize (fun _ => B) ea <= Z.of_nat (fact n) * B ^ Z.of_nat n) ->
  quotient_outcome t q a d /\
  forall B, signed t = true -> (forall i j, Z.abs (M i j) <= B) -> 1 <= B -> Z.of_nat (fact n) * B ^ Z.of_nat n <= hi t -> d <> 0 -> q = Some (Z.quot a d).
Proof using Ht.
  intros HG -> Pa Pd R Va Vd K. pose proof wide8 as W8. cbn [feval].
  assert (X : forall e, feval (fun k => G (k / n)%nat (k mod n)%nat) e = feval (fun k => Some (M (k / n)%nat (k mod n)%nat)) e) by (intros e; apply feval_ext; intros; apply HG).
  rewrite (X ea), (X ed). split.
  - apply div_quotient; [rewrite <- Va|rewrite <- Vd]; apply (formula_outcome t W8); auto; intros k; apply value_outcome; auto.
  - intros B S Hb B1 H Dz. destruct (K B B1) as (K1 & K2 & K3). pose proof (trap S) as T.
    rewrite (formula_defined t W8 _ ea T), (formula_defined t W8 _ ed T), Va, Vd.
    + assert (Ba : Z.abs a <= hi t).
      { rewrite <- Va. eapply Z.le_trans; [apply zsize_bound; auto|]. eapply Z.le_trans; [apply (zsize_le _ B); [intros; apply Hb|lia]|]. lia. }
      assert (Q : div (Some a) (Some d) = lift2 t Z.quot (Some a) (Some d)) by (cbn [div t_ops int_ops]; destruct d; congruence).
      rewrite Q. apply (lift2_defined t W8); auto. apply abs_range; auto.
      apply Z.le_trans with (Z.abs a); auto. rewrite <- Z.quot_abs by auto.
      rewrite Z.quot_div_nonneg by lia. apply Z.div_le_upper_bound; [lia|]. nia.
    + apply (zfits_le t _ B); [intros; apply Hb|lia|]. apply peak_fits; auto. lia.
    + apply (zfits_le t _ B); [intros; apply Hb|lia|]. apply peak_fits; auto. lia.
Qed.

Lemma small_inverse (n : nat) (G N : nat -> nat -> option Z) (M : nat -> nat -> Z) :
  (forall i j, G i j = Some (M i j)) -> (forall i j, in_range t (M i j) = true) ->
  (n = 2%nat /\ N = inv2 G \/ n = 3%nat /\ N = inv3 G \/ n = 4%nat /\ N = inv4 G) ->
  forall i j, (i < n)%nat -> (j < n)%nat ->
  quotient_outcome t (N i j) (zadj n M i j) (zdet n M) /\
  forall B, signed t = true -> (forall i j, Z.abs (M i j) <= B) -> 1 <= B -> Z.of_nat (fact n) * B ^ Z.of_nat n <= hi t -> zdet n M <> 0 -> N i j = Some (Z.quot (zadj n M i j) (zdet n M)).
Proof using Ht.
  intros HG R [[-> ->]|[[-> ->]|[-> ->]]] i j Hi Hj.
  - destruct i as [|[|i]]; [| |lia]; destruct j as [|[|j]]; try lia;
    match goal with |- quotient_outcome _ (inv2 G ?x ?y) _ _ /\ _ =>
      let e := eval vm_compute in (inv2 (fun r c => FVar (r * 2 + c)) x y) in
      match e with FOther ?a ?d => apply (entry_ok 2 G M _ a d) end end; auto;
    try (cbn; tauto); try (unfold zadj, zdet, zminor, zstrike; cbn -[Z.mul Z.add Z.sub Z.opp]; ring);
    (intros B B1; cbn -[Z.mul Z.add Z.sub Z.opp Z.max Z.pow]; replace (Z.abs B) with B by lia; change (B ^ 2) with (B * (B * 1)); nia).
  - destruct i as [|[|[|i]]]; [| | |lia]; destruct j as [|[|[|j]]]; try lia;
    match goal with |- quotient_outcome _ (inv3 G ?x ?y) _ _ /\ _ =>
      let e := eval vm_compute in (inv3 (fun r c => FVar (r * 3 + c)) x y) in
      match e with FOther ?a ?d => apply (entry_ok 3 G M _ a d) end end; auto;
    try (cbn; tauto); try (unfold zadj, zdet, zminor, zstrike; cbn -[Z.mul Z.add Z.sub Z.opp]; ring);
    (intros B B1; cbn -[Z.mul Z.add Z.sub Z.opp Z.max Z.pow]; replace (Z.abs B) with B by lia; replace (B ^ 3) with (B * (B * B)) by ring;
     assert (P2 : B <= B * B) by nia; assert (P3 : B * B <= B * (B * B)) by nia;
     repeat split; repeat apply Z.max_lub; nia).
  - destruct i as [|[|[|[|i]]]]; [| | | |lia]; destruct j as [|[|[|[|j]]]]; try lia;
    match goal with |- quotient_outcome _ (inv4 G ?x ?y) _ _ /\ _ =>
      let e := eval vm_compute in (inv4 (fun r c => FVar (r * 4 + c)) x y) in
      match e with FOther ?a ?d => apply (entry_ok 4 G M _ a d) end end; auto;
    try (cbn; tauto); try (unfold zadj, zdet, zminor, zstrike; cbn -[Z.mul Z.add Z.sub Z.opp]; ring);
    (intros B B1; cbn -[Z.mul Z.add Z.sub Z.opp Z.max Z.pow]; replace (Z.abs B) with B by lia; replace (B ^ 4) with (B * (B * (B * B))) by ring;
     assert (P2 : B <= B * B) by nia; assert (P3 : B * B <= B * (B * B)) by nia; assert (P4 : B * (B * B) <= B * (B * (B * B))) by nia;
     repeat split; repeat apply Z.max_lub; nia).
Qed.
End Type_t.
