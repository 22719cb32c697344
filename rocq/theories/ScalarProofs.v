(** Proofs for ScalarModel.v. *)
From Coq Require Import ZArith Bool Lia Reals Lra R_Ifp.
From Coq.Reals Require Import Ratan.
From Verif Require Import Base BaseFacts ScalarModel RInst.

Open Scope nat_scope.

(** Specification: the C++ [<] of the scalar type is a strict total order. *)
Definition total_order {T} (lt : T -> T -> bool) : Prop :=
  (forall a, lt a a = false) /\
  (forall a b c, lt a b = true -> lt b c = true -> lt a c = true) /\
  (forall a b, lt a b = false -> lt b a = false -> a = b).

Section Order.
Context {T : Type} {O : Ops T}.
Hypothesis TO : total_order ltb.

Lemma to_irrefl a : ltb a a = false. Proof. apply TO. Qed.
Lemma to_trans a b c : ltb a b = true -> ltb b c = true -> ltb a c = true.
Proof. apply TO. Qed.
Lemma to_eq a b : ltb a b = false -> ltb b a = false -> a = b. Proof. apply TO. Qed.
Lemma to_asym a b : ltb a b = true -> ltb b a = false.
Proof.
  intros H. destruct (ltb b a) eqn:E; auto.
  rewrite <- (to_irrefl a). symmetry. eapply to_trans; eauto.
Qed.
(** a <= b -> b <= c -> a <= c *)
Lemma to_le_trans a b c : ltb b a = false -> ltb c b = false -> ltb c a = false.
Proof.
  intros H1 H2. destruct (ltb c a) eqn:E; auto.
  destruct (ltb a b) eqn:E1.
  - rewrite <- H2. symmetry; eapply to_trans; eauto.
  - rewrite (to_eq a b) in E by auto. congruence.
Qed.

Lemma clamp_spec_l v lo hi : ltb hi lo = false ->
  (ltb v lo = true -> clamp v lo hi = lo) /\
  (ltb hi v = true -> clamp v lo hi = hi) /\
  (ltb v lo = false -> ltb hi v = false -> clamp v lo hi = v).
Proof.
  intros H. unfold clamp, std_max, std_min. split; [|split]; intros.
  - destruct (ltb hi v) eqn:E.
    + assert (ltb hi lo = true) by (eapply to_trans; eauto). congruence.
    + now rewrite H0.
  - rewrite H0. now rewrite H.
  - rewrite H1, H0. reflexivity.
Qed.

Lemma clamp_range_l v lo hi : ltb hi lo = false ->
  ltb (clamp v lo hi) lo = false /\ ltb hi (clamp v lo hi) = false.
Proof.
  intros H. destruct (clamp_spec_l v lo hi H) as [A [B C]].
  destruct (ltb v lo) eqn:E1; [rewrite A by auto; split; auto using to_irrefl|].
  destruct (ltb hi v) eqn:E2; [rewrite B by auto; split; auto using to_irrefl|].
  rewrite C by auto; auto.
Qed.

Lemma in_range_spec_l v lo hi :
  in_range v lo hi = true <-> ltb v lo = false /\ ltb hi v = false.
Proof.
  unfold in_range. rewrite andb_true_iff, !negb_true_iff. tauto.
Qed.

Ltac brk := repeat match goal with |- context[if ltb ?a ?b then _ else _] =>
   let E := fresh "E" in destruct (ltb a b) eqn:E end.

Lemma le_of_lt a b : ltb a b = true -> ltb b a = false.
Proof. apply to_asym. Qed.

(** [nthv l i]: i-th argument. *)
Definition arg2 (a b : T) (i : nat) : T := match i with 0 => a | _ => b end.
Definition arg3 (a b c : T) (i : nat) : T := match i with 0 => a | 1 => b | _ => c end.
Definition arg4 (a b c d : T) (i : nat) : T :=
  match i with 0 => a | 1 => b | 2 => c | _ => d end.

Ltac fin := cbn; repeat split; auto using to_irrefl, to_asym;
  eauto using to_le_trans, to_asym, to_irrefl.

Lemma index_of_max2_l a b : let k := index_of_max2 a b in
  k < 2 /\ forall i, i < 2 -> ltb (arg2 a b k) (arg2 a b i) = false.
Proof.
  unfold index_of_max2; brk; cbn; split; try lia; intros [|[|i]] Hi; try lia; fin.
Qed.
Lemma index_of_min2_l a b : let k := index_of_min2 a b in
  k < 2 /\ forall i, i < 2 -> ltb (arg2 a b i) (arg2 a b k) = false.
Proof.
  unfold index_of_min2; brk; cbn; split; try lia; intros [|[|i]] Hi; try lia; fin.
Qed.
Lemma index_of_max3_l a b c : let k := index_of_max3 a b c in
  k < 3 /\ forall i, i < 3 -> ltb (arg3 a b c k) (arg3 a b c i) = false.
Proof.
  unfold index_of_max3; brk; cbn; split; try lia; intros [|[|[|i]]] Hi; try lia; fin.
Qed.
Lemma index_of_min3_l a b c : let k := index_of_min3 a b c in
  k < 3 /\ forall i, i < 3 -> ltb (arg3 a b c i) (arg3 a b c k) = false.
Proof.
  unfold index_of_min3; brk; cbn; split; try lia; intros [|[|[|i]]] Hi; try lia; fin.
Qed.
Lemma index_of_max4_l a b c d : let k := index_of_max4 a b c d in
  k < 4 /\ forall i, i < 4 -> ltb (arg4 a b c d k) (arg4 a b c d i) = false.
Proof.
  unfold index_of_max4; brk; cbn; split; try lia; intros [|[|[|[|i]]]] Hi; try lia; fin.
Qed.
Lemma index_of_min4_l a b c d : let k := index_of_min4 a b c d in
  k < 4 /\ forall i, i < 4 -> ltb (arg4 a b c d i) (arg4 a b c d k) = false.
Proof.
  unfold index_of_min4; brk; cbn; split; try lia; intros [|[|[|[|i]]]] Hi; try lia; fin.
Qed.
End Order.

(** Indexing *)
Open Scope Z_scope.
Lemma next_l i N : 0 <= i < N ->
  next i N = Ok (if Z.eqb i (N - 1) then 0 else i + 1).
Proof.
  intros H. unfold next. destruct (Z.eqb_spec N 0); [lia|].
  destruct (Z.eqb_spec i (N - 1)).
  - subst. replace (N - 1 + 1) with N by lia. now rewrite Z.rem_same.
  - rewrite Z.rem_small; auto; lia.
Qed.
Lemma prev_l i N : 0 <= i < N -> prev i N = if Z.eqb i 0 then N - 1 else i - 1.
Proof. reflexivity. Qed.
Lemma prev_next_l i N : 0 <= i < N -> exists j, next i N = Ok j /\ 0 <= j < N /\ prev j N = i.
Proof.
  intros H. rewrite next_l by auto. eexists; split; eauto. unfold prev.
  destruct (Z.eqb_spec i (N - 1)); [simpl; lia|].
  destruct (Z.eqb_spec (i + 1) 0); lia.
Qed.
Lemma next_prev_l i N : 0 <= i < N -> 0 <= prev i N < N /\ next (prev i N) N = Ok i.
Proof.
  intros H. assert (H0 : 0 <= prev i N < N).
  { unfold prev. destruct (Z.eqb_spec i 0); lia. }
  split; auto. rewrite next_l by auto. unfold prev.
  destruct (Z.eqb_spec i 0); subst.
  - rewrite Z.eqb_refl. auto.
  - destruct (Z.eqb_spec (i - 1) (N - 1)); [lia|]. f_equal; lia.
Qed.
Lemma cyclic2_l f : 0 <= f < 2 -> cyclic_permutation2 f = Ok (f, (f + 1) mod 2).
Proof. intros H. assert (f = 0 \/ f = 1) as [->| ->] by lia; reflexivity. Qed.
Lemma cyclic3_l f : 0 <= f < 3 ->
  cyclic_permutation3 f = Ok (f, (f + 1) mod 3, (f + 2) mod 3).
Proof. intros H. assert (f = 0 \/ f = 1 \/ f = 2) as [->|[->| ->]] by lia; reflexivity. Qed.
Lemma cyclic4_l f : 0 <= f < 4 ->
  cyclic_permutation4 f = Ok (f, (f + 1) mod 4, (f + 2) mod 4, (f + 3) mod 4).
Proof.
  intros H. assert (f = 0 \/ f = 1 \/ f = 2 \/ f = 3) as [->|[->|[->| ->]]] by lia; reflexivity.
Qed.
Close Scope Z_scope.

(** Reals *)
Open Scope R_scope.
Lemma Rltb_true a b : Rltb a b = true <-> a < b.
Proof. unfold Rltb; destruct (Rlt_dec a b); intuition congruence. Qed.
Lemma Rltb_false a b : Rltb a b = false <-> b <= a.
Proof. unfold Rltb; destruct (Rlt_dec a b); intuition (try congruence); lra. Qed.
Lemma Reqb_true a b : Reqb a b = true <-> a = b.
Proof. unfold Reqb; destruct (Req_EM_T a b); intuition congruence. Qed.

Lemma R_total_order : total_order (@ltb R _).
Proof.
  split; [|split]; cbn; intros.
  - apply Rltb_false; lra.
  - rewrite Rltb_true in *; lra.
  - rewrite Rltb_false in *; lra.
Qed.

Lemma Rtrunc_spec x : (0 <= x -> 0 <= x - IZR (Rtrunc x) < 1) /\
                      (x < 0 -> -1 < x - IZR (Rtrunc x) <= 0).
Proof.
  unfold Rtrunc; split; intros H; destruct (Rle_dec 0 x); try lra.
  - destruct (base_Int_part x); lra.
  - rewrite opp_IZR. destruct (base_Int_part (- x)); lra.
Qed.

Lemma Rfmod_range x y : 0 < y ->
  - y < Rfmod x y < y /\ (0 <= x -> 0 <= Rfmod x y) /\ (x <= 0 -> Rfmod x y <= 0)
  /\ exists k : Z, Rfmod x y = x - IZR k * y.
Proof.
  intros Hy. unfold Rfmod. set (q := x / y).
  assert (Hx : x = q * y) by (unfold q; field; lra).
  destruct (Rtrunc_spec q) as [A B].
  replace (x - IZR (Rtrunc q) * y) with ((q - IZR (Rtrunc q)) * y) by (rewrite Hx at 1; ring).
  set (f := q - IZR (Rtrunc q)) in *.
  assert (Hq : 0 <= q \/ q < 0) by lra.
  split; [|split; [|split]].
  - destruct Hq as [Hq|Hq]; [specialize (A Hq)|specialize (B Hq)]; split; nra.
  - intros Hx0. assert (0 <= q) by (unfold q; apply Rmult_le_pos; [lra|left; now apply Rinv_0_lt_compat]).
    specialize (A H); nra.
  - intros Hx0. destruct Hq as [Hq|Hq].
    + assert (q = 0) by nra. unfold f. rewrite H in *. specialize (A Hq).
      assert (Int_part 0 = 0%Z).
      { assert (E := base_Int_part 0). destruct E as [E1 E2].
        assert (IZR (Int_part 0) <= 0) by lra. assert (-1 < IZR (Int_part 0)) by lra.
        apply le_IZR in H0. apply (lt_IZR (-1)) in H1. lia. }
      unfold Rtrunc. destruct (Rle_dec 0 0); [|lra]. rewrite H0. lra.
    + specialize (B Hq); nra.
  - exists (Rtrunc q). unfold f; rewrite Hx; ring.
Qed.

Lemma wrap_l v lo hi : lo < hi ->
  lo <= wrap v lo hi < hi /\ exists k : Z, wrap v lo hi = v + IZR k * (hi - lo).
Proof.
  intros H. unfold wrap; cbn. set (p := hi - lo). assert (Hp : 0 < p) by (unfold p; lra).
  destruct (Rfmod_range (v - lo) p Hp) as [A [B [C [k D]]]].
  unfold Rltb. destruct (Rlt_dec (Rfmod (v - lo) p) 0).
  - split; [unfold p in *; lra|]. exists (1 - k)%Z. rewrite D, minus_IZR. unfold p; lra.
  - split; [unfold p in *; lra|]. exists (- k)%Z. rewrite D, opp_IZR. unfold p; lra.
Qed.

(** The congruence class has one representative in [lo,hi): wrap is determined. *)
Lemma wrap_unique_l v lo hi w k : lo < hi -> lo <= w < hi -> w = v + IZR k * (hi - lo) ->
  wrap v lo hi = w.
Proof.
  intros H Hw E. destruct (wrap_l v lo hi H) as [Hr [m Em]].
  assert (Hk : IZR (k - m) * (hi - lo) = w - wrap v lo hi) by (rewrite minus_IZR; lra).
  assert (k - m = 0)%Z.
  { assert (-1 < IZR (k - m) < 1) by (split; nra).
    destruct H0 as [H1 H2]. apply (lt_IZR (-1)) in H1. apply lt_IZR in H2. lia. }
  rewrite H0 in Hk. lra.
Qed.

Lemma map_range_l v a b c d : a <> b ->
  map_range a a b c d = c /\ map_range b a b c d = d /\
  (forall s, map_range (a + s * (b - a)) a b c d = c + s * (d - c)) /\
  (c <> d -> map_range (map_range v a b c d) c d a b = v).
Proof.
  intros H. assert (Hne : b - a <> 0) by lra.
  unfold map_range; cbn. repeat split; intros; field; auto.
  split; lra.
Qed.

Lemma clamp_R v lo hi : lo <= hi -> clamp v lo hi = Rmax lo (Rmin v hi).
Proof.
  intros H. unfold clamp, std_max, std_min; cbn; unfold Rltb.
  unfold Rmax, Rmin. destruct (Rlt_dec hi v), (Rle_dec v hi); try lra;
  match goal with |- context[Rlt_dec ?a ?b] => destruct (Rlt_dec a b) end;
  match goal with |- context[Rle_dec ?a ?b] => destruct (Rle_dec a b) end; lra.
Qed.

(** nearest point of [lo,hi] *)
Lemma clamp_nearest_l v lo hi : lo <= hi -> lo <= clamp v lo hi <= hi /\
  forall w, lo <= w <= hi -> Rabs (v - clamp v lo hi) <= Rabs (v - w).
Proof.
  intros H. unfold clamp, std_max, std_min; cbn; unfold Rltb.
  destruct (Rlt_dec hi v);
  match goal with |- context[Rlt_dec ?a ?b] => destruct (Rlt_dec a b) end;
   split; try lra; intros; unfold Rabs;
   repeat match goal with |- context[Rcase_abs ?a] => destruct (Rcase_abs a) end; lra.
Qed.

Lemma acos_safe_l x : 0 <= acos_safe x <= PI /\ (-1 <= x <= 1 -> cos (acos_safe x) = x)
  /\ (x <= -1 -> acos_safe x = PI) /\ (1 <= x -> acos_safe x = 0).
Proof.
  unfold acos_safe. cbn [macos RMath].
  assert (E : clamp x (neg one) one = Rmax (-1) (Rmin x 1)) by (apply clamp_R; cbn; lra).
  rewrite E. split; [|split; [|split]].
  - apply acos_bound.
  - intros H. rewrite Rmin_left, Rmax_right by (try apply Rmin_glb; lra). apply cos_acos; lra.
  - intros H. rewrite Rmin_left, Rmax_left by lra.
    replace (-1) with (- (1)) by lra. rewrite acos_opp, acos_1; lra.
  - intros H. rewrite Rmin_right, Rmax_right by lra. apply acos_1.
Qed.
Lemma asin_safe_l x : - (PI/2) <= asin_safe x <= PI/2 /\ (-1 <= x <= 1 -> sin (asin_safe x) = x)
  /\ (x <= -1 -> asin_safe x = - (PI/2)) /\ (1 <= x -> asin_safe x = PI/2).
Proof.
  unfold asin_safe. cbn [masin RMath].
  assert (E : clamp x (neg one) one = Rmax (-1) (Rmin x 1)) by (apply clamp_R; cbn; lra).
  rewrite E. split; [|split; [|split]].
  - apply asin_bound.
  - intros H. rewrite Rmin_left, Rmax_right by (try apply Rmin_glb; lra). apply sin_asin; lra.
  - intros H. rewrite Rmin_left, Rmax_left by lra.
    replace (-1) with (- (1)) by lra. rewrite asin_opp, asin_1; lra.
  - intros H. rewrite Rmin_right, Rmax_right by lra. apply asin_1.
Qed.
Lemma sqrt_safe_l x : 0 <= sqrt_safe x /\ (0 <= x -> sqrt_safe x * sqrt_safe x = x)
  /\ (x <= 0 -> sqrt_safe x = 0).
Proof.
  unfold sqrt_safe, std_max; cbn; unfold Rltb. split; [apply sqrt_pos|split; intros H].
  - destruct (Rlt_dec x 0); [lra|]. now apply sqrt_sqrt.
  - destruct (Rlt_dec x 0); [apply sqrt_0|]. replace x with 0 by lra. apply sqrt_0.
Qed.
Lemma sign_l x : (x < 0 -> sign x = -1) /\ (x = 0 -> sign x = 0) /\ (0 < x -> sign x = 1)
  /\ x = sign x * Rabs x.
Proof.
  unfold sign; cbn; unfold Rltb.
  repeat split; intros; repeat match goal with |- context[Rlt_dec ?a ?b] => destruct (Rlt_dec a b) end;
   try lra; unfold Rabs; destruct (Rcase_abs x); lra.
Qed.
