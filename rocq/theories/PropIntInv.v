(** C82: inverses and determinants of matrices with integer elements. *)
From Coq Require Import ZArith Bool List Arith Lia.
From Verif Require Import Base RotModel MatModel LUModel IntModel PropInt MixedModel PropMixed IntInvSpec IntInvProofs IntAdj IntElim.
Import ListNotations.
Open Scope Z_scope.

(** scalar/traits.h:41-56: fabs of an integer type goes through double *)
Definition tfabs (t : ity) (x : option Z) : option Z := bindo x (int_fabs t).
(** the inverse of m: every entry defined, and equal to R *)
Definition inverse_is (t : ity) (m : mx (option Z)) (R : nat -> nat -> Z) : Prop :=
  exists r, matrix_inverse (Op := int_ops t) (tfabs t) m = Ok r /\ forall i j, (i < mrows m)%nat -> (j < mrows m)%nat -> mel r i j = Some (R i j).

Section Type_t.
Context (t : ity) (Ht : bits int_t <= bits t).
#[local] Instance t_ops82 : Ops (option Z) := int_ops t.

(** 2x2 to 4x4: the entries are the truncated quotients of the cofactors by the determinant *)
Theorem small_inverse_integer : forall (m : mx (option Z)) M, mrows m = mcols m -> (2 <= mrows m <= 4)%nat ->
  (forall i j, mel m i j = Some (M i j)) -> (forall i j, in_range t (M i j) = true) ->
  let n := mrows m in
  exists r, matrix_inverse (tfabs t) m = Ok r /\ mrows r = n /\ mcols r = n /\ mbasis r = mbasis m /\
  (forall i j, (i < n)%nat -> (j < n)%nat -> quotient_outcome t (mel r i j) (zadj n M i j) (zdet n M)) /\
  (forall B, signed t = true -> (forall i j, Z.abs (M i j) <= B) -> 1 <= B -> Z.of_nat (fact n) * B ^ Z.of_nat n <= hi t -> zdet n M <> 0 ->
    forall i j, (i < n)%nat -> (j < n)%nat -> mel r i j = Some (Z.quot (zadj n M i j) (zdet n M))).
Proof using Ht.
  intros m M Sq Hn HM HR n. unfold matrix_inverse, require. rewrite <- Sq, Nat.eqb_refl. cbn [bind]. fold n. fold n in Hn.
  eexists. split; [reflexivity|]. cbn [mrows mcols mbasis mel]. do 3 (split; [reflexivity|]).
  match goal with |- (forall i j, _ -> _ -> quotient_outcome t (?N i j) _ _) /\ _ => pose proof (small_inverse t Ht n (mel m) N M HM HR) as SI; set (X := N) in * end.
  assert (C : n = 2%nat \/ n = 3%nat \/ n = 4%nat) by lia.
  assert (C' : n = 2%nat /\ X = inv2 (mel m) \/ n = 3%nat /\ X = inv3 (mel m) \/ n = 4%nat /\ X = inv4 (mel m)).
  { unfold X. clearbody n. destruct C as [-> |[-> | ->]]; auto. }
  split; [intros i j Hi Hj; apply (SI C' i j Hi Hj)|]. intros B Sg HB B1 HF Hd i j Hi Hj. apply (proj2 (SI C' i j Hi Hj) B); auto.
Qed.

(** a singular matrix: division by zero, in every entry *)
Theorem small_inverse_singular : forall (m : mx (option Z)) M, mrows m = mcols m -> (2 <= mrows m <= 4)%nat ->
  (forall i j, mel m i j = Some (M i j)) -> (forall i j, in_range t (M i j) = true) -> zdet (mrows m) M = 0 ->
  exists r, matrix_inverse (tfabs t) m = Ok r /\ forall i j, (i < mrows m)%nat -> (j < mrows m)%nat -> mel r i j = None.
Proof using Ht.
  intros m M Sq Hn HM HR D. destruct (small_inverse_integer m M Sq Hn HM HR) as (r & E & _ & _ & _ & Q & _). exists r. split; auto.
  intros i j Hi Hj. specialize (Q i j Hi Hj). unfold quotient_outcome in Q. destruct (signed t); [apply Q; exact D|].
  rewrite D, Zmod_0_l in Q. exact Q.
Qed.

(** signed types: the result is the inverse exactly for determinant 1 or -1 *)
Theorem small_inverse_unimodular : signed t = true -> forall (m : mx (option Z)) M R, mrows m = mcols m -> (2 <= mrows m <= 4)%nat ->
  (forall i j, mel m i j = Some (M i j)) -> (forall i j, in_range t (M i j) = true) -> inverse_is t m R ->
  (inverts (mrows m) R M <-> Z.abs (zdet (mrows m) M) = 1).
Proof using Ht.
  intros Sg m M R Sq Hn HM HR (r & E & HE). destruct (small_inverse_integer m M Sq Hn HM HR) as (r' & E' & _ & _ & _ & Q & _).
  assert (Er : r' = r) by (unfold t_ops82 in *; rewrite E in E'; injection E' as <-; reflexivity). subst r'.
  assert (X : zdet (mrows m) M <> 0 /\ same_upto (mrows m) R (fun i j => Z.quot (zadj (mrows m) M i j) (zdet (mrows m) M))).
  { assert (Y : forall i j, (i < mrows m)%nat -> (j < mrows m)%nat -> zdet (mrows m) M <> 0 /\ R i j = Z.quot (zadj (mrows m) M i j) (zdet (mrows m) M)).
    { intros i j Hi Hj. specialize (Q i j Hi Hj). unfold quotient_outcome in Q. rewrite Sg in Q. apply Q. apply HE; auto. }
    split; [apply (Y 0 0)%nat; lia|]. intros i j Hi Hj. apply Y; auto. }
  destruct X as [Hd HS]. rewrite <- (quotient_inverts (mrows m) M Hn Hd).
  assert (L : same_upto (mrows m) M M) by (intros i j _ _; reflexivity).
  assert (HS' : same_upto (mrows m) (fun i j => Z.quot (zadj (mrows m) M i j) (zdet (mrows m) M)) R) by (intros i j Hi Hj; symmetry; apply HS; auto).
  split; intros [A B]; split; intros i j Hi Hj.
  - rewrite <- (A i j Hi Hj). apply (zmul_ext (mrows m)); auto.
  - rewrite <- (B i j Hi Hj). apply (zmul_ext (mrows m)); auto.
  - rewrite <- (A i j Hi Hj). apply (zmul_ext (mrows m)); auto.
  - rewrite <- (B i j Hi Hj). apply (zmul_ext (mrows m)); auto.
Qed.

(** unsigned types: the inverse modulo 2^bits when the determinant is 1 modulo 2^bits *)
Theorem small_inverse_modular : signed t = false -> forall (m : mx (option Z)) M, mrows m = mcols m -> (2 <= mrows m <= 4)%nat ->
  (forall i j, mel m i j = Some (M i j)) -> (forall i j, in_range t (M i j) = true) -> zdet (mrows m) M mod 2 ^ bits t = 1 ->
  exists R, inverse_is t m R /\ inverts_mod (2 ^ bits t) (mrows m) R M.
Proof using Ht.
  intros Sg m M Sq Hn HM HR D. destruct (small_inverse_integer m M Sq Hn HM HR) as (r & E & _ & _ & _ & Q & _).
  pose proof (pow_pos t Ht) as P. exists (fun i j => zadj (mrows m) M i j mod 2 ^ bits t). split.
  - exists r. split; auto. intros i j Hi Hj. specialize (Q i j Hi Hj). unfold quotient_outcome in Q. rewrite Sg, D in Q.
    change (1 =? 0) with false in Q. cbv iota in Q. rewrite Z.div_1_r in Q. exact Q.
  - apply adj_inverts_mod; auto; [lia| |].
    + rewrite D. symmetry. apply Z.mod_small. pose proof (wide8 t Ht). assert (2 ^ 1 <= 2 ^ bits t) by (apply Z.pow_le_mono_r; lia). lia.
    + intros i j _ _. apply Z.mod_mod. lia.
Qed.

(** the other sizes: a matrix with an element other than -1, 0 and 1 is never inverted *)
Theorem pivoting_inverse_integer_refuted : forall (m : mx (option Z)) M, mrows m = mcols m -> (mrows m = 1 \/ 5 <= mrows m)%nat ->
  (forall i j, mel m i j = Some (M i j)) -> (forall i j, Z.abs (M i j) <= 2 ^ 53 /\ in_range t (Z.abs (M i j)) = true) ->
  (exists i j, (i < mrows m)%nat /\ (j < mrows m)%nat /\ 2 <= Z.abs (M i j)) ->
  exists r c, matrix_inverse (tfabs t) m = Ok r /\ (c < mrows m)%nat /\
    (forall j, (j < mrows m)%nat -> mel r c j = Some 0 \/ mel r c j = None) /\
    forall R, inverse_is t m R -> ~ inverts (mrows m) R M.
Proof using Ht.
  intros m M Sq Hn HM HR Big. set (n := mrows m) in *.
  assert (Ab : forall i j, tfabs t (Some (M i j)) = Some (Z.abs (M i j))).
  { intros i j. destruct (HR i j) as [A B]. unfold tfabs. cbn [bindo]. rewrite int_fabs_exact by exact A. rewrite B. reflexivity. }
  destruct (inverse_pivot_dead t Ht (tfabs t) M n Ab (mel m) HM) as (c & Hc & D); [lia|exact Big|].
  assert (E : matrix_inverse (tfabs t) m = Ok (Mx n n (mbasis m) (inverse_pivot (tfabs t) n (mel m)))).
  { unfold matrix_inverse, require. rewrite <- Sq. fold n. rewrite Nat.eqb_refl. cbn [bind].
    destruct n as [|[|[|[|[|n]]]]]; try lia; reflexivity. }
  assert (D' : forall j, (j < n)%nat -> inverse_pivot (tfabs t) n (mel m) c j = Some 0 \/ inverse_pivot (tfabs t) n (mel m) c j = None).
  { exact D. }
  exists (Mx n n (mbasis m) (inverse_pivot (tfabs t) n (mel m))), c. split; [exact E|]. split; [exact Hc|]. split; [exact D'|].
  intros R (r & Er & HE) [L _].
  assert (X : forall j, (j < n)%nat -> R c j = 0).
  { intros j Hj. unfold t_ops82 in *. rewrite E in Er. injection Er as <-. cbn [mel] in HE. specialize (HE c j Hc Hj). destruct (D' j Hj) as [Y|Y]; rewrite Y in HE; [injection HE as <-; reflexivity|discriminate]. }
  specialize (L c c Hc Hc). unfold zid in L. rewrite Nat.eqb_refl in L. unfold zmul in L.
  rewrite (zsum_ext n _ (fun _ => 0)) in L by (intros k Hk; rewrite X by auto; lia).
  assert (Z0 : zsum n (fun _ => 0) = 0) by (clear; induction n as [|n IH]; cbn; lia). lia.
Qed.

(** determinants of larger matrices: no guard against a zero pivot, in any size *)
Theorem large_determinant_zero_column : forall (m : mx (option Z)) M, mrows m = mcols m -> (5 <= mrows m)%nat ->
  (forall i j, mel m i j = Some (M i j)) -> M 0%nat 0%nat <= 0 -> (forall i, (1 <= i < mrows m)%nat -> M i 0%nat = 0) ->
  determinant (tfabs t) (Some 0) m = Ok None.
Proof using Ht.
  intros m M Sq Hn HM H0 Hi. unfold determinant, require. rewrite <- Sq, Nat.eqb_refl. cbn [bind].
  assert (E : detN (tfabs t) (Some 0) (mrows m) (mel m) = None).
  { apply (zero_column t (tfabs t) (Some 0) (mrows m) (mel m) (M 0 0)%nat); auto; [lia| |].
    - intros i H. rewrite HM, Hi; auto.
    - unfold tfabs. cbn [bindo]. rewrite int_fabs_exact by (cbn; lia). change (Z.abs 0) with 0. rewrite (proj1 (zero_one_range t (wide8 t Ht))). reflexivity. }
  destruct (mrows m) as [|[|[|[|[|n]]]]]; try lia. rewrite E. reflexivity.
Qed.
(** ... and the exact value for upper triangular matrices with a positive diagonal *)
Theorem large_determinant_triangular : forall (m : mx (option Z)) M, mrows m = mcols m -> (5 <= mrows m)%nat ->
  (forall i j, mel m i j = Some (M i j)) -> (forall i j, in_range t (M i j) = true) ->
  (forall i j, (j < i)%nat -> (i < mrows m)%nat -> M i j = 0) -> (forall i, (i < mrows m)%nat -> 1 <= M i i) ->
  zprod (mrows m) (fun i => M i i) <= hi t -> determinant (tfabs t) (Some 0) m = Ok (Some (zprod (mrows m) (fun i => M i i))).
Proof using Ht.
  intros m M Sq Hn HM HR Low Pos Hp. unfold determinant, require. rewrite <- Sq, Nat.eqb_refl. cbn [bind].
  assert (E : detN (tfabs t) (Some 0) (mrows m) (mel m) = Some (zprod (mrows m) (fun i => M i i))).
  { apply (det_triangular t Ht (tfabs t) (mrows m) M); auto; [lia|].
    unfold tfabs. cbn [bindo]. rewrite int_fabs_exact by (cbn; lia). change (Z.abs 0) with 0. rewrite (proj1 (zero_one_range t (wide8 t Ht))). reflexivity. }
  destruct (mrows m) as [|[|[|[|[|n]]]]]; try lia. rewrite E. reflexivity.
Qed.
End Type_t.

Definition int_mx (n : nat) (M : nat -> nat -> Z) : mx (option Z) := Mx n n col_basis (fun i j => Some (M i j)).
(** unsigned: an invertible matrix whose determinant is not 1 modulo 2^bits *)
Theorem small_inverse_modular_refuted : exists M R, (forall i j, in_range unsigned_t (M i j) = true) /\ inverse_is unsigned_t (int_mx 2 M) R /\
  inverts_mod (2 ^ 32) 2 M M /\ ~ inverts_mod (2 ^ 32) 2 R M.
Proof.
  exists (fun i j => if Nat.eqb i j then (if Nat.eqb i 0 then 1 else 4294967295) else 0), (fun i j => if (Nat.eqb i 0 && Nat.eqb j 0)%bool then 1 else 0).
  split; [intros i j; destruct (Nat.eqb i j), (Nat.eqb i 0); reflexivity|]. split; [|split].
  - eexists. split; [reflexivity|]. intros i j Hi Hj. cbn in Hi, Hj. destruct i as [|[|i]]; [| |lia]; destruct j as [|[|j]]; try lia; vm_compute; reflexivity.
  - intros i j Hi Hj. destruct i as [|[|i]]; [| |lia]; destruct j as [|[|j]]; try lia; split; vm_compute; reflexivity.
  - intros H. destruct (H 1 1)%nat as [A _]; [lia|lia|]. vm_compute in A. discriminate.
Qed.
(** a 5x5 matrix with a wrong determinant *)
Definition five (i j : nat) : Z := match i, j with 0%nat, 0%nat => 2 | 0%nat, 1%nat => 1 | 1%nat, 0%nat => 1 | _, _ => if Nat.eqb i j then 1 else 0 end.
Theorem large_determinant_refuted : exists M d, (forall i j, Z.abs (M i j) <= 2) /\
  determinant (Op := int_ops int_t) (tfabs int_t) (Some 0) (int_mx 5 M) = Ok (Some d) /\ zdet 5 M = 1 /\ d = 2.
Proof.
  exists five, 2. split; [|split; [|split]]; [|vm_compute; reflexivity..].
  intros [|[|i]] [|[|j]]; cbn; try lia. destruct (Nat.eqb i j); cbn; lia.
Qed.

(** *** The hypotheses are met *)
Example unimodular_example : inverse_is int_t (int_mx 2 (fun i j => nth (2 * i + j) [3; 5; 1; 2] 0)) (fun i j => nth (2 * i + j) [2; -5; -1; 3] 0) /\
  zdet 2 (fun i j => nth (2 * i + j) [3; 5; 1; 2] 0) = 1 /\
  inverts 2 (fun i j => nth (2 * i + j) [2; -5; -1; 3] 0) (fun i j => nth (2 * i + j) [3; 5; 1; 2] 0).
Proof.
  split; [|split; [reflexivity|]].
  - eexists. split; [reflexivity|]. intros i j Hi Hj. cbn in Hi, Hj. destruct i as [|[|i]]; [| |lia]; destruct j as [|[|j]]; try lia; vm_compute; reflexivity.
  - split; intros i j Hi Hj; destruct i as [|[|i]]; try lia; destruct j as [|[|j]]; try lia; vm_compute; reflexivity.
Qed.
Example not_unimodular_example : inverse_is int_t (int_mx 3 (fun i j => if Nat.eqb i j then 2 else 0)) (fun _ _ => 0).
Proof.
  eexists. split; [reflexivity|]. intros i j Hi Hj. cbn in Hi, Hj. destruct i as [|[|[|i]]]; [| | |lia]; destruct j as [|[|[|j]]]; try lia; vm_compute; reflexivity.
Qed.
Example int_entries_bound : Z.of_nat (fact 4) * 97 ^ Z.of_nat 4 <= hi int_t.
Proof. vm_compute. discriminate. Qed.
Example singular_example : zdet 3 (fun i j => Z.of_nat (3 * i + j)) = 0 /\
  exists r, matrix_inverse (Op := int_ops int_t) (tfabs int_t) (int_mx 3 (fun i j => Z.of_nat (3 * i + j))) = Ok r /\ mel r 0%nat 0%nat = None.
Proof. split; [reflexivity|]. eexists. split; [reflexivity|]. vm_compute. reflexivity. Qed.
Example modular_example : zdet 2 (fun i j => nth (2 * i + j) [3; 5; 1; 2] 0) mod 2 ^ 32 = 1 /\
  inverse_is unsigned_t (int_mx 2 (fun i j => nth (2 * i + j) [3; 5; 1; 2] 0)) (fun i j => nth (2 * i + j) [2; 4294967291; 4294967295; 3] 0).
Proof.
  split; [reflexivity|]. eexists. split; [reflexivity|]. intros i j Hi Hj. cbn in Hi, Hj. destruct i as [|[|i]]; [| |lia]; destruct j as [|[|j]]; try lia; vm_compute; reflexivity.
Qed.
(** [2] has no integer inverse; the 5x5 matrix above has one, and gets another result *)
Example pivoting_example : (exists i j, (i < 5)%nat /\ (j < 5)%nat /\ 2 <= Z.abs (five i j)) /\ zdet 5 five = 1 /\
  inverse_is int_t (int_mx 5 five) (fun i j => match i, j with 0%nat, _ => 0 | 1%nat, 0%nat => 0 | _, _ => if Nat.eqb i j then 1 else 0 end).
Proof.
  split; [exists 0%nat, 0%nat; cbn; lia|]. split; [vm_compute; reflexivity|].
  eexists. split; [reflexivity|]. intros i j Hi Hj. cbn in Hi, Hj.
  destruct i as [|[|[|[|[|i]]]]]; try lia; destruct j as [|[|[|[|[|j]]]]]; try lia; vm_compute; reflexivity.
Qed.
Example zero_column_example : determinant (Op := int_ops int_t) (tfabs int_t) (Some 0) (int_mx 5 (fun i j => if Nat.eqb i j then -1 else 0)) = Ok None /\
  zdet 5 (fun i j => if Nat.eqb i j then -1 else 0) = -1.
Proof. split; vm_compute; reflexivity. Qed.
Example triangular_example : determinant (Op := int_ops int_t) (tfabs int_t) (Some 0) (int_mx 6 (fun i j => if (i <=? j)%nat then Z.of_nat j + 1 else 0)) = Ok (Some 720).
Proof. vm_compute; reflexivity. Qed.

Print Assumptions small_inverse_integer.
Print Assumptions small_inverse_singular.
Print Assumptions small_inverse_unimodular.
Print Assumptions small_inverse_modular.
Print Assumptions small_inverse_modular_refuted.
Print Assumptions pivoting_inverse_integer_refuted.
Print Assumptions large_determinant_zero_column.
Print Assumptions large_determinant_triangular.
Print Assumptions large_determinant_refuted.
