(** C42: scalar utilities. *)
From Coq Require Import ZArith Bool Lia Reals Lra.
From Verif Require Import Base ScalarModel RInst ScalarProofs.
Open Scope R_scope.

(** clamp returns the value of [lo, hi] nearest to v *)
Theorem clamp_nearest : forall v lo hi : R, lo <= hi ->
  lo <= clamp v lo hi <= hi /\
  forall w, lo <= w <= hi -> Rabs (v - clamp v lo hi) <= Rabs (v - w).
Proof. exact clamp_nearest_l. Qed.
(** for any totally ordered scalar type, integers included *)
Theorem clamp_any : forall (T : Type) (O : Ops T) (v lo hi : T),
  total_order (@ltb T O) -> ltb hi lo = false ->
  (ltb v lo = true -> clamp v lo hi = lo) /\
  (ltb hi v = true -> clamp v lo hi = hi) /\
  (ltb v lo = false -> ltb hi v = false -> clamp v lo hi = v).
Proof. intros. apply clamp_spec_l; auto. Qed.
Theorem in_range_iff : forall v lo hi : R, in_range v lo hi = true <-> lo <= v <= hi.
Proof.
  intros. rewrite in_range_spec_l. cbn. rewrite !Rltb_false. tauto.
Qed.
(** wrap returns the unique number of [lo, hi) congruent to v *)
Theorem wrap_congruent : forall v lo hi : R, lo < hi ->
  lo <= wrap v lo hi < hi /\ exists k : Z, wrap v lo hi = v + IZR k * (hi - lo).
Proof. exact wrap_l. Qed.
Theorem wrap_unique : forall (v lo hi w : R) (k : Z), lo < hi -> lo <= w < hi ->
  w = v + IZR k * (hi - lo) -> wrap v lo hi = w.
Proof. exact wrap_unique_l. Qed.
Theorem map_range_affine : forall v a b c d : R, a <> b ->
  map_range a a b c d = c /\ map_range b a b c d = d /\
  (forall s, map_range (a + s * (b - a)) a b c d = c + s * (d - c)) /\
  (c <> d -> map_range (map_range v a b c d) c d a b = v).
Proof. exact map_range_l. Qed.
Theorem sign_abs : forall x : R,
  (x < 0 -> sign x = -1) /\ (x = 0 -> sign x = 0) /\ (0 < x -> sign x = 1)
  /\ x = sign x * Rabs x.
Proof. exact sign_l. Qed.
(** the safe functions are total and agree with the exact ones on their domain *)
Theorem acos_safe_total : forall x : R,
  0 <= acos_safe x <= PI /\ (-1 <= x <= 1 -> cos (acos_safe x) = x)
  /\ (x <= -1 -> acos_safe x = PI) /\ (1 <= x -> acos_safe x = 0).
Proof. exact acos_safe_l. Qed.
Theorem asin_safe_total : forall x : R,
  - (PI/2) <= asin_safe x <= PI/2 /\ (-1 <= x <= 1 -> sin (asin_safe x) = x)
  /\ (x <= -1 -> asin_safe x = - (PI/2)) /\ (1 <= x -> asin_safe x = PI/2).
Proof. exact asin_safe_l. Qed.
Theorem sqrt_safe_total : forall x : R,
  0 <= sqrt_safe x /\ (0 <= x -> sqrt_safe x * sqrt_safe x = x) /\ (x <= 0 -> sqrt_safe x = 0).
Proof. exact sqrt_safe_l. Qed.

(** index_of_max / index_of_min: the argument at the returned position is an
    extremum (no argument is greater / less). *)
Theorem index_of_max_is_max : forall (T : Type) (O : Ops T), total_order (@ltb T O) ->
  (forall a b, let k := index_of_max2 a b in
     (k < 2)%nat /\ forall i, (i < 2)%nat -> ltb (arg2 a b k) (arg2 a b i) = false) /\
  (forall a b c, let k := index_of_max3 a b c in
     (k < 3)%nat /\ forall i, (i < 3)%nat -> ltb (arg3 a b c k) (arg3 a b c i) = false) /\
  (forall a b c d, let k := index_of_max4 a b c d in
     (k < 4)%nat /\ forall i, (i < 4)%nat -> ltb (arg4 a b c d k) (arg4 a b c d i) = false).
Proof.
  intros T O TO. repeat split; intros; apply index_of_max2_l || apply index_of_max3_l || apply index_of_max4_l; auto.
Qed.
Theorem index_of_min_is_min : forall (T : Type) (O : Ops T), total_order (@ltb T O) ->
  (forall a b, let k := index_of_min2 a b in
     (k < 2)%nat /\ forall i, (i < 2)%nat -> ltb (arg2 a b i) (arg2 a b k) = false) /\
  (forall a b c, let k := index_of_min3 a b c in
     (k < 3)%nat /\ forall i, (i < 3)%nat -> ltb (arg3 a b c i) (arg3 a b c k) = false) /\
  (forall a b c d, let k := index_of_min4 a b c d in
     (k < 4)%nat /\ forall i, (i < 4)%nat -> ltb (arg4 a b c d i) (arg4 a b c d k) = false).
Proof.
  intros T O TO. repeat split; intros; apply index_of_min2_l || apply index_of_min3_l || apply index_of_min4_l; auto.
Qed.
(** the _abs variants, over the reals: an argument of greatest / least magnitude *)
Theorem index_of_max_abs_is_max : forall a b c : R,
  (let k := index_of_max_abs2 a b in
     (k < 2)%nat /\ forall i, (i < 2)%nat -> Rabs (arg2 a b i) <= Rabs (arg2 a b k)) /\
  (let k := index_of_max_abs3 a b c in
     (k < 3)%nat /\ forall i, (i < 3)%nat -> Rabs (arg3 a b c i) <= Rabs (arg3 a b c k)).
Proof.
  intros a b c. split.
  - destruct (index_of_max2_l R_total_order (Rabs a) (Rabs b)) as [A B]. split; [exact A|].
    intros i Hi. specialize (B i Hi). cbn in B. rewrite Rltb_false in B.
    unfold index_of_max_abs2. cbn [mfabs RMath].
    destruct (index_of_max2 (Rabs a) (Rabs b)), i; exact B.
  - destruct (index_of_max3_l R_total_order (Rabs a) (Rabs b) (Rabs c)) as [A B]. split; [exact A|].
    intros i Hi. specialize (B i Hi). cbn in B. rewrite Rltb_false in B.
    unfold index_of_max_abs3. cbn [mfabs RMath].
    destruct (index_of_max3 (Rabs a) (Rabs b) (Rabs c)) as [|[|]], i as [|[|]]; exact B.
Qed.
Theorem index_of_min_abs_is_min : forall a b c d : R,
  (let k := index_of_min_abs2 a b in
     (k < 2)%nat /\ forall i, (i < 2)%nat -> Rabs (arg2 a b k) <= Rabs (arg2 a b i)) /\
  (let k := index_of_min_abs3 a b c in
     (k < 3)%nat /\ forall i, (i < 3)%nat -> Rabs (arg3 a b c k) <= Rabs (arg3 a b c i)) /\
  (let k := index_of_max_abs4 a b c d in
     (k < 4)%nat /\ forall i, (i < 4)%nat -> Rabs (arg4 a b c d i) <= Rabs (arg4 a b c d k)) /\
  (let k := index_of_min_abs4 a b c d in
     (k < 4)%nat /\ forall i, (i < 4)%nat -> Rabs (arg4 a b c d k) <= Rabs (arg4 a b c d i)).
Proof.
  intros a b c d. split; [|split; [|split]].
  - destruct (index_of_min2_l R_total_order (Rabs a) (Rabs b)) as [A B]. split; [exact A|].
    intros i Hi. specialize (B i Hi). cbn in B. rewrite Rltb_false in B.
    unfold index_of_min_abs2. cbn [mfabs RMath].
    destruct (index_of_min2 (Rabs a) (Rabs b)), i; exact B.
  - destruct (index_of_min3_l R_total_order (Rabs a) (Rabs b) (Rabs c)) as [A B]. split; [exact A|].
    intros i Hi. specialize (B i Hi). cbn in B. rewrite Rltb_false in B.
    unfold index_of_min_abs3. cbn [mfabs RMath].
    destruct (index_of_min3 (Rabs a) (Rabs b) (Rabs c)) as [|[|]], i as [|[|]]; exact B.
  - destruct (index_of_max4_l R_total_order (Rabs a) (Rabs b) (Rabs c) (Rabs d)) as [A B]. split; [exact A|].
    intros i Hi. specialize (B i Hi). cbn in B. rewrite Rltb_false in B.
    unfold index_of_max_abs4. cbn [mfabs RMath].
    destruct (index_of_max4 (Rabs a) (Rabs b) (Rabs c) (Rabs d)) as [|[|[|]]], i as [|[|[|]]]; exact B.
  - destruct (index_of_min4_l R_total_order (Rabs a) (Rabs b) (Rabs c) (Rabs d)) as [A B]. split; [exact A|].
    intros i Hi. specialize (B i Hi). cbn in B. rewrite Rltb_false in B.
    unfold index_of_min_abs4. cbn [mfabs RMath].
    destruct (index_of_min4 (Rabs a) (Rabs b) (Rabs c) (Rabs d)) as [|[|[|]]], i as [|[|[|]]]; exact B.
Qed.
(** the hypothesis is met by the reals and by Z *)
Example total_order_R : total_order (@ltb R _).
Proof. exact R_total_order. Qed.

Open Scope Z_scope.
(** next and prev are mutually inverse cyclic steps on 0..N-1 *)
Theorem next_step : forall i N : Z, 0 <= i < N -> next i N = Ok ((i + 1) mod N).
Proof.
  intros i N H. rewrite next_l by auto. destruct (Z.eqb_spec i (N - 1)).
  - subst. replace (N - 1 + 1) with N by lia. now rewrite Z.mod_same by lia.
  - now rewrite Z.mod_small by lia.
Qed.
Theorem prev_after_next : forall i N : Z, 0 <= i < N ->
  exists j, next i N = Ok j /\ 0 <= j < N /\ prev j N = i.
Proof. exact prev_next_l. Qed.
Theorem next_after_prev : forall i N : Z, 0 <= i < N ->
  0 <= prev i N < N /\ next (prev i N) N = Ok i.
Proof. exact next_prev_l. Qed.
Theorem cyclic_permutations : forall f : Z,
  (0 <= f < 2 -> cyclic_permutation2 f = Ok (f, (f + 1) mod 2)) /\
  (0 <= f < 3 -> cyclic_permutation3 f = Ok (f, (f + 1) mod 3, (f + 2) mod 3)) /\
  (0 <= f < 4 -> cyclic_permutation4 f = Ok (f, (f + 1) mod 4, (f + 2) mod 4, (f + 3) mod 4)).
Proof. intros; repeat split; [apply cyclic2_l | apply cyclic3_l | apply cyclic4_l]. Qed.
Example next_ex : next 4 5 = Ok 0 /\ prev 0 5 = 4.
Proof. split; reflexivity. Qed.

Print Assumptions clamp_nearest.
Print Assumptions clamp_any.
Print Assumptions in_range_iff.
Print Assumptions wrap_congruent.
Print Assumptions wrap_unique.
Print Assumptions map_range_affine.
Print Assumptions sign_abs.
Print Assumptions acos_safe_total.
Print Assumptions asin_safe_total.
Print Assumptions sqrt_safe_total.
Print Assumptions index_of_max_is_max.
Print Assumptions index_of_min_is_min.
Print Assumptions index_of_max_abs_is_max.
Print Assumptions index_of_min_abs_is_min.
Print Assumptions next_step.
Print Assumptions prev_after_next.
Print Assumptions next_after_prev.
Print Assumptions cyclic_permutations.
