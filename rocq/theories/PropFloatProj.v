(** C74: projection matrices and quaternion inverses in floating point. *)
From Coq Require Import ZArith Bool List Arith Lia Reals Lra.
From Flocq Require Import Core BinarySingleNaN.
From Verif Require Import Base FloatModel FloatFacts PropFloat PropFloatLU PropFloatNorm FloatRel ScalarModel MiscModel RotModel VecModel XfModel GeoModel XfProofs QuatModel.
Import ListNotations.
Open Scope nat_scope.
Open Scope R_scope.

(** The textbook matrices, over the real numbers: row i is the image of the i-th basis vector. *)
Definition orient (h : handedness) : R := match h with left_handed => 1 | right_handed => -1 end.
Definition kron (i j : nat) : R := if Nat.eqb i j then 1 else 0.
Definition ortho_entry (l r b t n f : R) (h : handedness) (z : zclip) (i j : nat) : R :=
  match i, j with
  | 0%nat, 0%nat => 2 / (r - l)
  | 1%nat, 1%nat => 2 / (t - b)
  | 2%nat, 2%nat => match z with z_clip_neg_one => 2 * orient h / (f - n) | z_clip_zero => orient h / (f - n) end
  | 3%nat, 0%nat => - (r + l) / (r - l)
  | 3%nat, 1%nat => - (t + b) / (t - b)
  | 3%nat, 2%nat => match z with z_clip_neg_one => - (f + n) / (f - n) | z_clip_zero => - n / (f - n) end
  | _, _ => kron i j
  end.
Definition persp_entry (l r b t n f : R) (h : handedness) (z : zclip) (i j : nat) : R :=
  match i, j with
  | 0%nat, 0%nat => 2 * n / (r - l)
  | 1%nat, 1%nat => 2 * n / (t - b)
  | 2%nat, 0%nat => - orient h * (r + l) / (r - l)
  | 2%nat, 1%nat => - orient h * (t + b) / (t - b)
  | 2%nat, 2%nat => match z with z_clip_neg_one => orient h * (f + n) / (f - n) | z_clip_zero => orient h * f / (f - n) end
  | 2%nat, 3%nat => orient h
  | 3%nat, 2%nat => match z with z_clip_neg_one => - (2 * f * n) / (f - n) | z_clip_zero => - (f * n) / (f - n) end
  | 3%nat, 3%nat => 0
  | _, _ => kron i j
  end.
(** the entries that depend on the view volume; the others are constants *)
Definition ortho_varies (i j : nat) : bool :=
  match i, j with 0%nat, 0%nat | 1%nat, 1%nat | 2%nat, 2%nat | 3%nat, 0%nat | 3%nat, 1%nat | 3%nat, 2%nat => true | _, _ => false end.
Definition persp_varies (i j : nat) : bool :=
  match i, j with 0%nat, 0%nat | 1%nat, 1%nat | 2%nat, 0%nat | 2%nat, 1%nat | 2%nat, 2%nat | 3%nat, 2%nat => true | _, _ => false end.
(** a symmetric view volume, given by width and height *)
Definition ortho_wh_entry (w ht n f : R) := ortho_entry (- (w / 2)) (w / 2) (- (ht / 2)) (ht / 2) n f.
Definition persp_wh_entry (w ht n f : R) := persp_entry (- (w / 2)) (w / 2) (- (ht / 2)) (ht / 2) n f.

Section IEEE.
Context (prec emax : Z) {Hprec : Prec_gt_0 prec} {Hmax : Prec_lt_emax prec emax}.
Notation F := (binary_float prec emax).
Notation val := (@B2R prec emax).
Notation fin x := (is_finite x = true).
Notation pow2 := (bpow radix2).
Notation u := (u_round prec).

(** x is finite and at most n half units away from e, relatively *)
Definition within (n : nat) (x : F) (e : R) : Prop := fin x /\ Rabs (val x - e) <= INR n * u * Rabs e.
(** zero, or of magnitude between 2^-a and 2^a *)
Definition ranged (a : Z) (e : R) : Prop := e = 0 \/ pow2 (- a) <= Rabs e <= pow2 a.

Section Proofs.
Context (P5 : (5 <= prec)%Z).
Notation ok := (ok prec emax).
Notation band := (band).

Lemma ok_within k x e a : (k <= 5)%nat -> ok x e k a -> within (S k) x e.
Proof.
  intros K (Fx & R & _). split; auto. pose proof (u_small prec P5) as U. assert (Q : INR k * u <= 5 / 32).
  { apply le_INR in K. replace (INR 5) with 5 in K by (cbn; ring). pose proof (pos_INR k). nra. }
  eapply Rle_trans; [apply (rel_bound prec P5 k); [lra|exact R]|]. apply Rmult_le_compat_r; [apply Rabs_pos|]. unfold gamma. rewrite S_INR.
  apply Rmult_le_reg_r with (1 - INR k * u); [lra|]. replace (INR k * u / (1 - INR k * u) * (1 - INR k * u)) with (INR k * u) by (field; lra).
  apply le_INR in K. replace (INR 5) with 5 in K by (cbn; ring). pose proof (pos_INR k).
  assert (0 <= INR k * u) by (apply Rmult_le_pos; lra). assert (M : (INR k + 1) * (INR k * u) <= 6 * (5 / 32)) by (apply Rmult_le_compat; lra).
  replace ((INR k + 1) * u * (1 - INR k * u)) with (INR k * u + u * (1 - (INR k + 1) * (INR k * u))) by ring.
  assert (0 <= u * (1 - (INR k + 1) * (INR k * u))) by (apply Rmult_le_pos; lra). lra.
Qed.
Lemma ok_band x e k a b : band b e -> ok x e k a -> ok x e k b.
Proof. intros B (H & R & _). split; auto. Qed.
Lemma ok_eq x e e' k a : e = e' -> ok x e k a -> ok x e' k a. Proof. now intros ->. Qed.
Lemma hand_ok h : fin (hand_sign h : F) /\ val (hand_sign h) = orient h * pow2 0 /\ (orient h = 1 \/ orient h = -1).
Proof.
  assert (E : val one = 1) by (cbn [one BOps]; apply Bone_correct). assert (Fi : fin (one : F)) by (cbn [one BOps]; apply is_finite_Bone).
  destruct h; cbn [hand_sign orient]; change (pow2 0) with 1; split; auto; [split; [lra|auto] | cbn [neg BOps]; now rewrite is_finite_Bopp | split; [|auto]].
  cbn [neg BOps]. rewrite B2R_Bopp, E. ring.
Qed.
Lemma band_orient h : band 0 (orient h).
Proof. right. change (pow2 (- 0)) with 1. change (pow2 0) with 1. destruct h; cbn [orient]; rewrite ?Rabs_Ropp, ?Rabs_R1; try lra. unfold Rabs; destruct (Rcase_abs _); lra. Qed.
Lemma hand_ok' h : ok (hand_sign h) (orient h) 0 0.
Proof. destruct (hand_ok h) as (A & B & _). split; auto. split; [|apply band_orient]. rewrite B. change (pow2 0) with 1. rewrite Rmult_1_r. apply rel_refl. Qed.
(** multiplication by the orientation *)
Lemma hand_mul h x e k a : ok x e k a -> (k <= 15)%nat -> (0 <= a)%Z -> (a + 4 <= emax)%Z -> ok (mul (hand_sign h) x) (orient h * e) k a.
Proof.
  intros O K A0 A. destruct (hand_ok h) as (B & C & D). pose proof (scale_ok prec emax P5 _ _ _ _ _ _ _ B C D O K A0 A ltac:(lia)) as Q.
  change (Z.abs 0) with 0%Z in Q. rewrite Z.add_0_r in Q. change (pow2 0) with 1 in Q. now rewrite Rmult_1_r in Q.
Qed.
Lemma hand_neg_mul h x e k a : ok x e k a -> (k <= 15)%nat -> (0 <= a)%Z -> (a + 4 <= emax)%Z -> ok (mul (neg (hand_sign h)) x) (- orient h * e) k a.
Proof.
  intros O K A0 A. destruct (hand_ok h) as (B & C & D).
  assert (B' : fin (neg (hand_sign h) : F)) by (cbn [neg BOps]; now rewrite is_finite_Bopp).
  assert (C' : val (neg (hand_sign h)) = - orient h * pow2 0) by (cbn [neg BOps]; rewrite B2R_Bopp, C; ring).
  assert (D' : - orient h = 1 \/ - orient h = -1) by lra.
  pose proof (scale_ok prec emax P5 _ _ _ _ _ _ _ B' C' D' O K A0 A ltac:(lia)) as Q.
  change (Z.abs 0) with 0%Z in Q. rewrite Z.add_0_r in Q. change (pow2 0) with 1 in Q. now rewrite Rmult_1_r in Q.
Qed.
Lemma minus_two_mul x e k a : ok x e k a -> (k <= 15)%nat -> (0 <= a)%Z -> (a + 4 <= emax)%Z -> ok (mul (neg two) x) (- (2 * e)) k (a + 1).
Proof.
  intros O K A0 A. destruct (two_val prec emax P5) as [E Fi].
  assert (B' : fin (neg two : F)) by (cbn [neg BOps]; now rewrite is_finite_Bopp).
  assert (C' : val (neg two) = -1 * pow2 1) by (cbn [neg BOps]; rewrite B2R_Bopp, E; change (pow2 1) with 2; ring).
  pose proof (scale_ok prec emax P5 _ _ _ _ _ _ _ B' C' (or_intror eq_refl) O K A0 A ltac:(lia)) as Q.
  change (Z.abs 1) with 1%Z in Q. change (pow2 1) with 2 in Q. replace (- (2 * e)) with (-1 * 2 * e) by ring. auto.
Qed.
Lemma two_ok : ok two 2 0 1.
Proof.
  destruct (two_val prec emax P5) as [E Fi]. rewrite <- E. apply exact_ok; auto. rewrite E. right. rewrite Rabs_pos_eq by lra. change (pow2 (- (1))) with (/ 2). change (pow2 1) with 2. lra.
Qed.
Lemma zero_ok : ok zero 0 0 0.
Proof. split; [reflexivity|]. split; [apply rel_refl|now left]. Qed.
Lemma kron_ok i j : ok (if Nat.eqb i j then one else zero) (kron i j) 0 0.
Proof. unfold kron. destruct (Nat.eqb i j); [apply one_ok; auto|apply zero_ok]. Qed.
Lemma be_identity (m : mx F) i j : be (mx_identity m) i j = if Nat.eqb i j then one else zero.
Proof. unfold be, mx_identity. cbn. destruct (mbasis m); auto. now rewrite Nat.eqb_sym. Qed.
Lemma inv_ok x e k a : ok x e k a -> e <> 0 -> (k <= 14)%nat -> (0 <= a)%Z -> (a + 3 <= emax)%Z -> ok (div one x) (/ e) (S k) a.
Proof.
  intros O N K A0 A. apply (ok_eq _ (1 / e)); [field; auto|]. change (S k) with (S (0 + k)). change a with (0 + a)%Z. apply div_ok; auto; try lia. now apply one_ok.
Qed.

Definition og W SX H SY D SZ n h z (i j : nat) : R :=
  match i, j with
  | 0%nat, 0%nat => 2 * / W
  | 1%nat, 1%nat => 2 * / H
  | 2%nat, 2%nat => match z with z_clip_neg_one => orient h * 2 * / D | z_clip_zero => orient h * / D end
  | 3%nat, 0%nat => - SX * / W
  | 3%nat, 1%nat => - SY * / H
  | 3%nat, 2%nat => match z with z_clip_neg_one => - SZ * / D | z_clip_zero => - n * / D end
  | _, _ => kron i j
  end.
Definition pg W SX H SY D SZ n f h z (i j : nat) : R :=
  match i, j with
  | 0%nat, 0%nat => 2 * n * / W
  | 1%nat, 1%nat => 2 * n * / H
  | 2%nat, 0%nat => - orient h * SX * / W
  | 2%nat, 1%nat => - orient h * SY * / H
  | 2%nat, 2%nat => match z with z_clip_neg_one => orient h * SZ * / D | z_clip_zero => orient h * f * / D end
  | 2%nat, 3%nat => orient h
  | 3%nat, 2%nat => match z with z_clip_neg_one => - (2 * f) * n * / D | z_clip_zero => - orient h * n * (orient h * f * / D) end
  | 3%nat, 3%nat => 0
  | _, _ => kron i j
  end.
Definition near4 (v : bool) (x : F) (e : R) : Prop := exists a, ok x e (if v then 4 else 0) a.
Lemma near (v : bool) x e k a : ok x e k a -> (k <= if v then 4 else 0)%nat -> near4 v x e.
Proof. intros O K. exists a. eapply ok_up; [exact P5| | |exact O]; lia. Qed.

Section Core.
Context (left right bottom top n f : F) (W SX H SY D SZ : R) (kw kx kh ky : nat) (a c : Z).
Context (Ow : ok (sub right left) W kw a) (Ox : ok (add right left) SX kx c).
Context (Oh : ok (sub top bottom) H kh a) (Oy : ok (add top bottom) SY ky c).
Context (Od : ok (sub f n) D 1 c) (Oz : ok (add f n) SZ 1 c).
Context (On : ok n (val n) 0 c) (Of : ok f (val f) 0 c).
Context (Nw : W <> 0) (Nh : H <> 0) (Nd : D <> 0) (Kx : (kw + kx <= 2)%nat) (Ky : (kh + ky <= 2)%nat).
Context (A0 : (0 <= a)%Z) (C0 : (0 <= c)%Z) (A1 : (a + c + 5 <= emax)%Z) (A2 : (3 * c + 5 <= emax)%Z).

Lemma iw : ok (div one (sub right left)) (/ W) (S kw) a. Proof. apply inv_ok; auto; lia. Qed.
Lemma ih : ok (div one (sub top bottom)) (/ H) (S kh) a. Proof. apply inv_ok; auto; lia. Qed.
Lemma id' : ok (div one (sub f n)) (/ D) 2 c. Proof. apply inv_ok; auto; lia. Qed.

Ltac bld := match goal with
  | E : ok ?x _ _ _ |- ok ?x _ _ _ => exact E
  | |- ok (mul two _) _ _ _ => eapply (mul_two prec emax P5); [bld|lia..]
  | |- ok (mul (neg two) _) _ _ _ => eapply minus_two_mul; [bld|lia..]
  | |- ok (mul (hand_sign _) _) _ _ _ => eapply hand_mul; [bld|lia..]
  | |- ok (mul (neg (hand_sign _)) _) _ _ _ => eapply hand_neg_mul; [bld|lia..]
  | |- ok (mul _ _) _ _ _ => eapply (mul_ok prec emax P5); [bld|bld|lia..]
  | |- ok (neg _) _ _ _ => eapply neg_ok; [bld]
  | |- ok two _ _ _ => apply two_ok
  | |- ok (hand_sign _) _ _ _ => apply hand_ok'
  | |- ok zero 0 _ _ => apply zero_ok
  | |- ok one _ _ _ => apply one_ok
  end.
Ltac diagonal := unfold kron; cbn [Nat.eqb]; match goal with |- context [Nat.eqb ?i ?j] => destruct (Nat.eqb i j) | _ => idtac end.
Ltac entries := intros i j; rewrite !be_setg, !be_identity; destruct i as [|[|[|[|i]]]], j as [|[|[|[|j]]]]; cbn [Nat.eqb andb og pg ortho_varies persp_varies];
  try diagonal; (eapply near; [bld|lia]).
Lemma ortho_core (m : mx F) h z : (4 <= mrows m)%nat -> (4 <= mcols m)%nat ->
  exists m', matrix_orthographic m left right bottom top n f h z = Ok m' /\ forall i j, near4 (ortho_varies i j) (be m' i j) (og W SX H SY D SZ (val n) h z i j).
Proof.
  intros R C. unfold matrix_orthographic, check_minimum_size. apply Nat.leb_le in R, C. rewrite R, C. cbn [andb require bind].
  eexists. split; [reflexivity|]. pose proof iw as Iw. pose proof ih as Ih. pose proof id' as Id. destruct z; entries.
Qed.
Lemma persp_core (m : mx F) h z : (4 <= mrows m)%nat -> (4 <= mcols m)%nat ->
  exists m', matrix_perspective m left right bottom top n f h z = Ok m' /\ forall i j, near4 (persp_varies i j) (be m' i j) (pg W SX H SY D SZ (val n) (val f) h z i j).
Proof.
  intros R C. unfold matrix_perspective, check_minimum_size. apply Nat.leb_le in R, C. rewrite R, C. cbn [andb require bind].
  eexists. split; [reflexivity|]. pose proof iw as Iw. pose proof ih as Ih. pose proof id' as Id. destruct z; entries.
Qed.
End Core.

Section WidthHeight.
Context (w ht n f : F) (W H D SZ : R) (kw kh : nat) (a c : Z).
Context (Ow : ok w W kw a) (Oh : ok ht H kh a) (Od : ok (sub f n) D 1 c) (Oz : ok (add f n) SZ 1 c).
Context (On : ok n (val n) 0 c) (Of : ok f (val f) 0 c).
Context (Nw : W <> 0) (Nh : H <> 0) (Nd : D <> 0) (Kw : (kw <= 2)%nat) (Kh : (kh <= 2)%nat).
Context (A0 : (0 <= a)%Z) (C0 : (0 <= c)%Z) (A1 : (a + c + 5 <= emax)%Z) (A2 : (3 * c + 5 <= emax)%Z).
Lemma half_ok (x : F) e k : ok x e k a -> (k <= 2)%nat -> ok (sub (div x two) (neg (div x two))) e k a /\ ok (add (div x two) (neg (div x two))) 0 0 c.
Proof.
  intros O K. assert (Q : ok (div x two) (e / 2) k (a + 1)) by (apply (div_two prec emax P5); auto; lia). split.
  - apply (ok_band _ _ _ (a + 1 + 1)); [apply O|]. apply (ok_eq _ (2 * (e / 2))); [field|]. apply (double_ok prec emax P5); auto; lia.
  - eapply ok_up; [exact P5| | |apply cancel_ok, Q]; lia.
Qed.
Lemma ortho_wh_core (m : mx F) h z : (4 <= mrows m)%nat -> (4 <= mcols m)%nat ->
  exists m', matrix_orthographic_wh m w ht n f h z = Ok m' /\ forall i j, near4 (ortho_varies i j) (be m' i j) (og W 0 H 0 D SZ (val n) h z i j).
Proof.
  intros R C. destruct (half_ok w W kw) as [X1 X2]; auto. destruct (half_ok ht H kh) as [Y1 Y2]; auto.
  unfold matrix_orthographic_wh. eapply ortho_core; eauto; lia.
Qed.
Lemma persp_wh_core (m : mx F) h z : (4 <= mrows m)%nat -> (4 <= mcols m)%nat ->
  exists m', matrix_perspective_wh m w ht n f h z = Ok m' /\ forall i j, near4 (persp_varies i j) (be m' i j) (pg W 0 H 0 D SZ (val n) (val f) h z i j).
Proof.
  intros R C. destruct (half_ok w W kw) as [X1 X2]; auto. destruct (half_ok ht H kh) as [Y1 Y2]; auto.
  unfold matrix_perspective_wh. eapply persp_core; eauto; lia.
Qed.
End WidthHeight.
Lemma near_within (v : bool) x e : near4 v x e -> within (if v then 5 else 0) x e.
Proof.
  intros (a & O). destruct v; [eapply ok_within; [|exact O]; lia|]. destruct O as (Fx & (t & E & A & B) & _). split; auto. cbn [pow] in A, B. rewrite Rinv_1 in B.
  assert (t = 1) by lra. subst t. rewrite E, Rmult_1_r, Rminus_diag_eq, Rabs_R0 by auto. cbn. lra.
Qed.
Lemma og_ext W SX H SY D SZ n h z W' SX' H' SY' D' SZ' n' i j : W = W' -> SX = SX' -> H = H' -> SY = SY' -> D = D' -> SZ = SZ' -> n = n' ->
  og W SX H SY D SZ n h z i j = og W' SX' H' SY' D' SZ' n' h z i j.
Proof. now intros -> -> -> -> -> -> ->. Qed.
Lemma og_entry l r b t n f h z i j : og (r - l) (r + l) (t - b) (t + b) (f - n) (f + n) n h z i j = ortho_entry l r b t n f h z i j.
Proof.
  destruct i as [|[|[|[|i]]]], j as [|[|[|[|j]]]]; cbn [og ortho_entry]; try reflexivity. destruct z; unfold Rdiv; ring.
Qed.
Lemma pg_entry l r b t n f h z i j : pg (r - l) (r + l) (t - b) (t + b) (f - n) (f + n) n f h z i j = persp_entry l r b t n f h z i j.
Proof.
  destruct i as [|[|[|[|i]]]], j as [|[|[|[|j]]]]; cbn [pg persp_entry]; try reflexivity. destruct z; unfold Rdiv; [ring|]. destruct h; cbn [orient]; ring.
Qed.
End Proofs.

(** The two ends of a side of the view volume: distinct, their difference and their sum within the range *)
Definition side (a : Z) (x y : F) : Prop := fin x /\ fin y /\ val x <> val y /\ ranged a (val y - val x) /\ ranged a (val y + val x).
Definition depth (a : Z) (n f : F) : Prop := side a n f /\ ranged a (val n) /\ ranged a (val f).

Theorem orthographic_accuracy (m : mx F) (l r b t n f : F) h z a : (5 <= prec)%Z -> (4 <= mrows m)%nat -> (4 <= mcols m)%nat ->
  side a l r -> side a b t -> depth a n f -> (0 <= a)%Z -> (3 * a + 5 <= emax)%Z ->
  exists m', matrix_orthographic m l r b t n f h z = Ok m' /\
    forall i j, within (if ortho_varies i j then 5 else 0) (be m' i j) (ortho_entry (val l) (val r) (val b) (val t) (val n) (val f) h z i j).
Proof.
  intros P5 R C (Fl & Fr & Nx & Wx & Sx) (Fb & Ft & Ny & Wy & Sy) ((Fn & Ff & Nz & Wz & Sz) & Bn & Bf) A0 A.
  destruct (ortho_core P5 l r b t n f (val r - val l) (val r + val l) (val t - val b) (val t + val b) (val f - val n) (val f + val n) 1 1 1 1 a a) with (m := m) (h := h) (z := z) as (m' & E & Q); auto; try lia; try lra.
  all: try (apply (sub_rounds prec emax P5); auto; lia). all: try (apply (add_rounds prec emax P5); auto; lia). all: try (apply exact_ok; auto).
  exists m'. split; auto. intros i j. rewrite <- og_entry. apply near_within; auto.
Qed.
Theorem perspective_accuracy (m : mx F) (l r b t n f : F) h z a : (5 <= prec)%Z -> (4 <= mrows m)%nat -> (4 <= mcols m)%nat ->
  side a l r -> side a b t -> depth a n f -> (0 <= a)%Z -> (3 * a + 5 <= emax)%Z ->
  exists m', matrix_perspective m l r b t n f h z = Ok m' /\
    forall i j, within (if persp_varies i j then 5 else 0) (be m' i j) (persp_entry (val l) (val r) (val b) (val t) (val n) (val f) h z i j).
Proof.
  intros P5 R C (Fl & Fr & Nx & Wx & Sx) (Fb & Ft & Ny & Wy & Sy) ((Fn & Ff & Nz & Wz & Sz) & Bn & Bf) A0 A.
  destruct (persp_core P5 l r b t n f (val r - val l) (val r + val l) (val t - val b) (val t + val b) (val f - val n) (val f + val n) 1 1 1 1 a a) with (m := m) (h := h) (z := z) as (m' & E & Q); auto; try lia; try lra.
  all: try (apply (sub_rounds prec emax P5); auto; lia). all: try (apply (add_rounds prec emax P5); auto; lia). all: try (apply exact_ok; auto).
  exists m'. split; auto. intros i j. rewrite <- pg_entry. apply near_within; auto.
Qed.
(** width and height instead of the four sides: the centring terms vanish exactly *)
Definition extent (a : Z) (w : F) : Prop := fin w /\ val w <> 0 /\ ranged a (val w).
Theorem orthographic_wh_accuracy (m : mx F) (w ht n f : F) h z a : (5 <= prec)%Z -> (4 <= mrows m)%nat -> (4 <= mcols m)%nat ->
  extent a w -> extent a ht -> depth a n f -> (0 <= a)%Z -> (3 * a + 5 <= emax)%Z ->
  exists m', matrix_orthographic_wh m w ht n f h z = Ok m' /\
    forall i j, within (if ortho_varies i j then 5 else 0) (be m' i j) (ortho_wh_entry (val w) (val ht) (val n) (val f) h z i j).
Proof.
  intros P5 R C (Fw & Nw & Bw) (Fh & Nh & Bh) ((Fn & Ff & Nz & Wz & Sz) & Bn & Bf) A0 A.
  destruct (ortho_wh_core P5 w ht n f (val w) (val ht) (val f - val n) (val f + val n) 0 0 a a) with (m := m) (h := h) (z := z) as (m' & E & Q); auto; try lia; try lra.
  all: try (apply (sub_rounds prec emax P5); auto; lia). all: try (apply (add_rounds prec emax P5); auto; lia). all: try (apply exact_ok; auto).
  exists m'. split; auto. intros i j. unfold ortho_wh_entry. rewrite <- og_entry. apply near_within; auto.
  replace (val w / 2 - - (val w / 2)) with (val w) by field. replace (val w / 2 + - (val w / 2)) with 0 by ring.
  replace (val ht / 2 - - (val ht / 2)) with (val ht) by field. replace (val ht / 2 + - (val ht / 2)) with 0 by ring. auto.
Qed.
Theorem perspective_wh_accuracy (m : mx F) (w ht n f : F) h z a : (5 <= prec)%Z -> (4 <= mrows m)%nat -> (4 <= mcols m)%nat ->
  extent a w -> extent a ht -> depth a n f -> (0 <= a)%Z -> (3 * a + 5 <= emax)%Z ->
  exists m', matrix_perspective_wh m w ht n f h z = Ok m' /\
    forall i j, within (if persp_varies i j then 5 else 0) (be m' i j) (persp_wh_entry (val w) (val ht) (val n) (val f) h z i j).
Proof.
  intros P5 R C (Fw & Nw & Bw) (Fh & Nh & Bh) ((Fn & Ff & Nz & Wz & Sz) & Bn & Bf) A0 A.
  destruct (persp_wh_core P5 w ht n f (val w) (val ht) (val f - val n) (val f + val n) 0 0 a a) with (m := m) (h := h) (z := z) as (m' & E & Q); auto; try lia; try lra.
  all: try (apply (sub_rounds prec emax P5); auto; lia). all: try (apply (add_rounds prec emax P5); auto; lia). all: try (apply exact_ok; auto).
  exists m'. split; auto. intros i j. unfold persp_wh_entry. rewrite <- pg_entry. apply near_within; auto.
  replace (val w / 2 - - (val w / 2)) with (val w) by field. replace (val w / 2 + - (val w / 2)) with 0 by ring.
  replace (val ht / 2 - - (val ht / 2)) with (val ht) by field. replace (val ht / 2 + - (val ht / 2)) with 0 by ring. auto.
Qed.
(** from an angle of view: T is what the tangent of half the angle came out as *)
Definition fov_entry (sx sy n f : R) (h : handedness) (z : zclip) (i j : nat) : R :=
  match i, j with
  | 0%nat, 0%nat => sx
  | 1%nat, 1%nat => sy
  | _, _ => persp_wh_entry 1 1 n f h z i j
  end.
Lemma pg_fov x y n f h z i j : x <> 0 -> y <> 0 -> n <> 0 -> pg (2 * n * x) 0 (2 * n * y) 0 (f - n) (f + n) n f h z i j = fov_entry (/ x) (/ y) n f h z i j.
Proof.
  intros X Y N. unfold fov_entry, persp_wh_entry. rewrite <- pg_entry. replace (1 / 2 + - (1 / 2)) with 0 by ring.
  destruct i as [|[|[|[|i]]]], j as [|[|[|[|j]]]]; cbn [pg]; try reflexivity; try ring; field; auto.
Qed.
Section Fov.
Context {MO : MathOps F}.
Theorem perspective_xfov_accuracy (m : mx F) (fov aspect n f : F) h z a : (5 <= prec)%Z -> (4 <= mrows m)%nat -> (4 <= mcols m)%nat ->
  let T := mtan (div fov two) in
  extent a T -> extent a aspect -> depth a n f -> val n <> 0 -> (0 <= a)%Z -> (4 * a + 7 <= emax)%Z ->
  exists m', matrix_perspective_xfov m fov aspect n f h z = Ok m' /\
    forall i j, within (if persp_varies i j then 5 else 0) (be m' i j) (fov_entry (/ val T) (val aspect / val T) (val n) (val f) h z i j).
Proof.
  intros P5 R C T (FT & NT & BT) (Fa & Na & Ba) ((Fn & Ff & Nz & Wz & Sz) & Bn & Bf) Nn A0 A.
  assert (Ow : ok prec emax (mul (mul two n) T) (2 * val n * val T) 1 (a + 1 + a)).
  { change 1%nat with (S (0 + 0)). apply (mul_ok prec emax P5); auto using exact_ok; try lia. apply (mul_two prec emax P5); auto using exact_ok; lia. }
  assert (Oh : ok prec emax (div (mul (mul two n) T) aspect) (2 * val n * (val T / val aspect)) 2 (a + 1 + a + a)).
  { apply (ok_eq _ (2 * val n * val T / val aspect)); [field; auto|]. change 2%nat with (S (1 + 0)). apply (div_ok prec emax P5); auto using exact_ok; lia. }
  assert (Nr : val T / val aspect <> 0) by (apply Rmult_integral_contrapositive_currified; auto using Rinv_neq_0_compat).
  destruct (persp_wh_core P5 (mul (mul two n) T) (div (mul (mul two n) T) aspect) n f (2 * val n * val T) (2 * val n * (val T / val aspect)) (val f - val n) (val f + val n) 1 2 (a + 1 + a + a) a) with (m := m) (h := h) (z := z) as (m' & E & Q); auto; try lia; try lra.
  all: try (apply (sub_rounds prec emax P5); auto; lia). all: try (apply (add_rounds prec emax P5); auto; lia). all: try (apply exact_ok; auto).
  all: try (eapply ok_up; [exact P5| | |exact Ow]; lia). all: try (repeat apply Rmult_integral_contrapositive_currified; auto; lra).
  exists m'. split; auto. intros i j. replace (val aspect / val T) with (/ (val T / val aspect)) by (field; auto). rewrite <- pg_fov; auto. apply near_within; auto.
Qed.
Theorem perspective_yfov_accuracy (m : mx F) (fov aspect n f : F) h z a : (5 <= prec)%Z -> (4 <= mrows m)%nat -> (4 <= mcols m)%nat ->
  let T := mtan (div fov two) in
  extent a T -> extent a aspect -> depth a n f -> val n <> 0 -> (0 <= a)%Z -> (4 * a + 7 <= emax)%Z ->
  exists m', matrix_perspective_yfov m fov aspect n f h z = Ok m' /\
    forall i j, within (if persp_varies i j then 5 else 0) (be m' i j) (fov_entry (/ (val T * val aspect)) (/ val T) (val n) (val f) h z i j).
Proof.
  intros P5 R C T (FT & NT & BT) (Fa & Na & Ba) ((Fn & Ff & Nz & Wz & Sz) & Bn & Bf) Nn A0 A.
  assert (Oh : ok prec emax (mul (mul two n) T) (2 * val n * val T) 1 (a + 1 + a)).
  { change 1%nat with (S (0 + 0)). apply (mul_ok prec emax P5); auto using exact_ok; try lia. apply (mul_two prec emax P5); auto using exact_ok; lia. }
  assert (Ow : ok prec emax (mul (mul (mul two n) T) aspect) (2 * val n * (val T * val aspect)) 2 (a + 1 + a + a)).
  { apply (ok_eq _ (2 * val n * val T * val aspect)); [ring|]. change 2%nat with (S (1 + 0)). apply (mul_ok prec emax P5); auto using exact_ok; lia. }
  assert (Nr : val T * val aspect <> 0) by (apply Rmult_integral_contrapositive_currified; auto).
  destruct (persp_wh_core P5 (mul (mul (mul two n) T) aspect) (mul (mul two n) T) n f (2 * val n * (val T * val aspect)) (2 * val n * val T) (val f - val n) (val f + val n) 2 1 (a + 1 + a + a) a) with (m := m) (h := h) (z := z) as (m' & E & Q); auto; try lia; try lra.
  all: try (apply (sub_rounds prec emax P5); auto; lia). all: try (apply (add_rounds prec emax P5); auto; lia). all: try (apply exact_ok; auto).
  all: try (eapply ok_up; [exact P5| | |exact Oh]; lia). all: try (repeat apply Rmult_integral_contrapositive_currified; auto; lra).
  exists m'. split; auto. intros i j. rewrite <- pg_fov; auto. apply near_within; auto.
Qed.
End Fov.

(** ** The quaternion inverse: no cancellation occurs *)
Definition component (a : Z) (x : F) : Prop := fin x /\ ranged a (val x).
Definition sum_of_squares (q : quat F) : R := val (qget q 0) ^ 2 + val (qget q 1) ^ 2 + val (qget q 2) ^ 2 + val (qget q 3) ^ 2.
(** the component i of the exact inverse, conj(q) / |q|^2 *)
Definition inverse_entry (o : order) (q : quat F) (i : nat) : R :=
  (if Nat.eqb i (oW o) then val (qget q i) else - val (qget q i)) / sum_of_squares q.
Lemma norm_ok (g : nat -> F) a : (5 <= prec)%Z -> (forall i, (i < 4)%nat -> component a (g i)) -> (0 <= a)%Z -> (2 * a + 6 <= emax)%Z ->
  ok prec emax (norm_of g) (val (g 0%nat) ^ 2 + val (g 1%nat) ^ 2 + val (g 2%nat) ^ 2 + val (g 3%nat) ^ 2) 4 (2 * a + 3).
Proof.
  intros P5 G A0 A. assert (S : forall i, (i < 4)%nat -> ok prec emax (mul (g i) (g i)) (val (g i) ^ 2) 1 (2 * a)).
  { intros i Hi. destruct (G i Hi) as [Fi Bi]. replace (val (g i) ^ 2) with (val (g i) * val (g i)) by ring. change 1%nat with (S (0 + 0)). replace (2 * a)%Z with (a + a)%Z by lia. apply (mul_ok prec emax P5); auto using exact_ok; lia. }
  pose proof (S 0%nat ltac:(lia)) as S0. pose proof (S 1%nat ltac:(lia)) as S1. pose proof (S 2%nat ltac:(lia)) as S2. pose proof (S 3%nat ltac:(lia)) as S3.
  assert (P : forall x : R, 0 <= x ^ 2) by (intros; apply pow2_ge_0). unfold norm_of.
  assert (E1 : ok prec emax (add (mul (g 0%nat) (g 0%nat)) (mul (g 1%nat) (g 1%nat))) (val (g 0%nat) ^ 2 + val (g 1%nat) ^ 2) 2 (2 * a + 1)).
  { replace (2 * a + 1)%Z with (Z.max (2 * a) (2 * a) + 1)%Z by lia. apply (add_ok prec emax P5 _ _ 1 _ _ _ 1); auto; lia. }
  assert (E2 : ok prec emax (add (add (mul (g 0%nat) (g 0%nat)) (mul (g 1%nat) (g 1%nat))) (mul (g 2%nat) (g 2%nat))) (val (g 0%nat) ^ 2 + val (g 1%nat) ^ 2 + val (g 2%nat) ^ 2) 3 (2 * a + 2)).
  { replace (2 * a + 2)%Z with (Z.max (2 * a + 1) (2 * a) + 1)%Z by lia. apply (add_ok prec emax P5 _ _ 2 _ _ _ 1); auto; try lia. pose proof (P (val (g 0%nat))). pose proof (P (val (g 1%nat))). lra. }
  replace (2 * a + 3)%Z with (Z.max (2 * a + 2) (2 * a) + 1)%Z by lia. apply (add_ok prec emax P5 _ _ 3 _ _ _ 1); auto; try lia.
  pose proof (P (val (g 0%nat))). pose proof (P (val (g 1%nat))). pose proof (P (val (g 2%nat))). lra.
Qed.
Lemma squares_nz (q : quat F) i : (i < 4)%nat -> val (qget q i) <> 0 -> sum_of_squares q <> 0.
Proof.
  intros Hi N. unfold sum_of_squares. assert (P : forall x : R, 0 <= x ^ 2) by (intros; apply pow2_ge_0). assert (Q : 0 < val (qget q i) ^ 2) by (rewrite <- Rsqr_pow2; apply Rsqr_pos_lt; auto).
  pose proof (P (val (qget q 0))). pose proof (P (val (qget q 1))). pose proof (P (val (qget q 2))). pose proof (P (val (qget q 3))).
  destruct i as [|[|[|[|i]]]]; [..|lia]; lra.
Qed.
Theorem quaternion_norm_accuracy (q : quat F) a : (5 <= prec)%Z -> (forall i, (i < 4)%nat -> component a (qget q i)) -> (0 <= a)%Z -> (2 * a + 6 <= emax)%Z ->
  within 5 (norm_of (qget q)) (sum_of_squares q).
Proof. intros P5 G A0 A. eapply (ok_within P5 4); [lia|]. apply norm_ok; eauto. Qed.
(** q.inverse() *)
Theorem quaternion_inverse_accuracy (o : order) (q : quat F) a : (5 <= prec)%Z -> (forall i, (i < 4)%nat -> component a (qget q i)) -> (0 <= a)%Z -> (3 * a + 6 <= emax)%Z ->
  (exists i, (i < 4)%nat /\ val (qget q i) <> 0) -> forall i, (i < 4)%nat -> within 6 (qget (q_inverse o q) i) (inverse_entry o q i).
Proof.
  intros P5 G A0 A (i0 & H0 & N0) i Hi. pose proof (squares_nz q i0 H0 N0) as Ns. pose proof (norm_ok (qget q) a P5 G A0 ltac:(lia)) as On.
  assert (Q : forall j, (j < 4)%nat -> within 6 (div (qget q j) (norm_of (qget q))) (val (qget q j) / sum_of_squares q) /\ within 6 (div (neg (qget q j)) (norm_of (qget q))) (- val (qget q j) / sum_of_squares q)).
  { intros j Hj. destruct (G j Hj) as [Fj Bj]. pose proof (exact_ok prec emax _ _ Fj Bj) as Oj. split; (eapply (ok_within P5 5); [lia|]; change 5%nat with (S (0 + 4)); eapply (div_ok prec emax P5); eauto using neg_ok; lia). }
  unfold inverse_entry. pose proof (Q 0%nat ltac:(lia)). pose proof (Q 1%nat ltac:(lia)). pose proof (Q 2%nat ltac:(lia)). pose proof (Q 3%nat ltac:(lia)).
  destruct o, i as [|[|[|[|i]]]]; try lia; cbn [oW Nat.eqb]; unfold q_inverse; cbn [oW oX oY oZ qput qget q0 q1 q2 q3] in *; tauto.
Qed.
(** inverse(q), the expression: one more rounding *)
Lemma ok_within6 k x e a : (6 <= prec)%Z -> (k <= 6)%nat -> ok prec emax x e k a -> within (S k) x e.
Proof.
  intros P6 K (Fx & R & _). split; auto. pose proof (u_pos prec) as U0. assert (U1 : u <= / 64) by (unfold u_round; change (/ 64) with (pow2 (-6)); apply bpow_le; lia).
  apply le_INR in K. replace (INR 6) with 6 in K by (cbn; ring). pose proof (pos_INR k).
  assert (Q : 0 <= INR k * u <= 6 * / 64) by (split; [apply Rmult_le_pos|apply Rmult_le_compat]; lra).
  eapply Rle_trans; [apply (rel_bound prec ltac:(lia) k); [lra|exact R]|]. apply Rmult_le_compat_r; [apply Rabs_pos|]. unfold gamma. rewrite S_INR.
  apply Rmult_le_reg_r with (1 - INR k * u); [lra|]. replace (INR k * u / (1 - INR k * u) * (1 - INR k * u)) with (INR k * u) by (field; lra).
  assert (M : (INR k + 1) * (INR k * u) <= 7 * (6 * / 64)) by (apply Rmult_le_compat; lra).
  replace ((INR k + 1) * u * (1 - INR k * u)) with (INR k * u + u * (1 - (INR k + 1) * (INR k * u))) by ring.
  assert (0 <= u * (1 - (INR k + 1) * (INR k * u))) by (apply Rmult_le_pos; lra). lra.
Qed.
Theorem quaternion_inverse_expression_accuracy {MO : MathOps F} (o : order) (c : crossing) (q p : quat F) a : (6 <= prec)%Z -> (forall i, (i < 4)%nat -> component a (qget q i)) -> (0 <= a)%Z -> (3 * a + 6 <= emax)%Z ->
  (exists i, (i < 4)%nat /\ val (qget q i) <> 0) -> forall i, (i < 4)%nat -> within 7 (qget (q_assign o c (XInv (XQuat q)) p) i) (inverse_entry o q i).
Proof.
  intros P6 G A0 A (i0 & H0 & N0) i Hi. assert (P5 : (5 <= prec)%Z) by lia. pose proof (squares_nz q i0 H0 N0) as Ns. pose proof (norm_ok (qget q) a P5 G A0 ltac:(lia)) as On.
  assert (Oi : ok prec emax (div one (norm_of (qget q))) (/ sum_of_squares q) 5 (2 * a + 3)) by (apply (inv_ok P5); auto; lia).
  assert (Q : forall j, (j < 4)%nat -> within 7 (mul (div one (norm_of (qget q))) (qget q j)) (val (qget q j) / sum_of_squares q) /\ within 7 (mul (div one (norm_of (qget q))) (neg (qget q j))) (- val (qget q j) / sum_of_squares q)).
  { intros j Hj. destruct (G j Hj) as [Fj Bj]. pose proof (exact_ok prec emax _ _ Fj Bj) as Oj. unfold Rdiv. rewrite (Rmult_comm (val _)), (Rmult_comm (- val _)).
    split; (eapply (ok_within6 6); [lia..|]; change 6%nat with (S (5 + 0)); eapply (mul_ok prec emax P5); eauto using neg_ok; lia). }
  unfold inverse_entry. pose proof (Q 0%nat ltac:(lia)). pose proof (Q 1%nat ltac:(lia)). pose proof (Q 2%nat ltac:(lia)). pose proof (Q 3%nat ltac:(lia)).
  destruct o, i as [|[|[|[|i]]]]; try lia; cbn [oW Nat.eqb]; unfold q_assign, assign_get; cbn [build nget oW oX oY oZ qput qget q0 q1 q2 q3 Nat.eqb] in *; change (norm_of (fun i => qget q i)) with (norm_of (qget q)); tauto.
Qed.
End IEEE.

(** ** Examples, in double precision, and what fails outside the range *)
Definition any4 : mx double := Mx 4 4 row_basis (fun _ _ => zero).
Ltac dv := repeat match goal with |- context [B2R (dbl ?m ?e)] => rewrite (proj2 (dbl_val m e ltac:(lia) ltac:(lia))) end.
Lemma ranged_10 x : / 1024 <= Rabs x <= 1024 -> ranged 10 x. Proof. intros H. right. exact H. Qed.
Ltac pw := change (bpow radix2 0) with 1; change (bpow radix2 (-1)) with (/ 2); change (bpow radix2 2) with 4.
Ltac inrange := apply ranged_10; dv; pw; unfold Rabs; destruct (Rcase_abs _); lra.
Example perspective_case : let l := dbl (-3) 0 in let r := dbl 5 0 in let b := dbl (-1) 0 in let t := dbl 2 0 in let n := dbl 1 (-1) in let f := dbl 100 0 in
  side 53 1024 10 l r /\ side 53 1024 10 b t /\ depth 53 1024 10 n f /\ (3 * 10 + 5 <= 1024)%Z.
Proof.
  assert (D : forall m e, (Z.abs m < 2 ^ 53)%Z -> (-1000 <= e <= 900)%Z -> is_finite (dbl m e) = true) by (intros; apply dbl_val; auto).
  cbv zeta. unfold side, depth, side. repeat split; try (apply D; lia); try lia; try inrange; dv; pw; lra.
Qed.
Example fov_case : exists MO : MathOps double, let T := mtan (div (dbl 1 0) two) in extent 53 1024 10 T /\ extent 53 1024 10 (dbl 3 (-1)) /\ (4 * 10 + 7 <= 1024)%Z.
Proof.
  assert (D : forall m e, (Z.abs m < 2 ^ 53)%Z -> (-1000 <= e <= 900)%Z -> is_finite (dbl m e) = true) by (intros; apply dbl_val; auto).
  exists (ex_math 53 1024). intros T. assert (E : T = dbl 1 (-1)) by (unfold T; apply B2SF_inj; vm_compute; reflexivity).
  rewrite E. unfold extent. repeat split; try (apply D; lia); try lia; try inrange; dv; pw; lra.
Qed.
(** the intermediate product 2 * far * near may overflow although the entry -2*far*near/(far - near) is representable;
    with z_clip_zero the same volume gives the finite entry *)
Theorem perspective_overflow_refuted : exists n f : double, is_finite n = true /\ is_finite f = true /\ 0 < B2R n < B2R f /\
  Rabs (- (2 * B2R f * B2R n) / (B2R f - B2R n)) <= bpow radix2 402 /\
  exists m', matrix_perspective any4 (dbl (-1) 0) (dbl 1 0) (dbl (-1) 0) (dbl 1 0) n f left_handed z_clip_neg_one = Ok m' /\ is_finite (be m' 3 2) = false.
Proof.
  exists (dbl 1 400), (dbl 1 700). destruct (pow2_val 400 ltac:(lia)) as [F1 V1]. destruct (pow2_val 700 ltac:(lia)) as [F2 V2]. rewrite V1, V2. split; auto. split; auto.
  split; [split; [apply bpow_gt_0|apply bpow_lt; lia]|]. split.
  - assert (X : bpow radix2 700 = bpow radix2 300 * bpow radix2 400) by (rewrite <- bpow_plus; reflexivity). assert (Y : 2 <= bpow radix2 300) by (change 2 with (bpow radix2 1); apply bpow_le; lia).
    assert (Z : bpow radix2 402 = 4 * bpow radix2 400) by (change 4 with (bpow radix2 2); rewrite <- bpow_plus; reflexivity). pose proof (bpow_gt_0 radix2 400) as P. rewrite X, Z. set (p := bpow radix2 400) in *. set (s := bpow radix2 300) in *.
    replace (- (2 * (s * p) * p) / (s * p - p)) with (- (2 * p * (s / (s - 1)))) by (field; nra). rewrite Rabs_Ropp, Rabs_pos_eq.
    + assert (s / (s - 1) <= 2). { apply Rmult_le_reg_r with (s - 1); [lra|]. replace (s / (s - 1) * (s - 1)) with s by (field; lra). lra. } nra.
    + apply Rmult_le_pos; [lra|]. apply Rmult_le_pos; [lra|]. left. apply Rinv_0_lt_compat. lra.
  - eexists. split; [reflexivity|]. vm_compute. reflexivity.
Qed.
(** the two inverses are not the same floats: 3 / 10 against (1 / 10) * 3 *)
Theorem inverse_forms_refuted : exists q : quat double, (forall i, is_finite (qget q i) = true) /\
  forall (MO : MathOps double) (c : crossing) (p : quat double), q_inverse real_first q <> q_assign real_first c (XInv (XQuat q)) p.
Proof.
  exists (Quat (dbl 3 0) (dbl 1 0) zero zero). split; [intros [|[|[|i]]]; vm_compute; reflexivity|]. intros MO c p E.
  apply (f_equal (fun x => B2SF (q0 x))) in E. revert E. cbn [q_inverse q_assign assign_get build nget qput qget q0 q1 q2 q3 oW oX oY oZ Nat.eqb]. vm_compute. discriminate.
Qed.
Example inverse_case : let q := Quat (dbl 3 0) (dbl 1 0) zero (dbl (-7) 2) in (forall i, (i < 4)%nat -> component 53 1024 10 (qget q i)) /\ exists i, (i < 4)%nat /\ B2R (qget q i) <> 0.
Proof.
  assert (D : forall m e, (Z.abs m < 2 ^ 53)%Z -> (-1000 <= e <= 900)%Z -> is_finite (dbl m e) = true) by (intros; apply dbl_val; auto).
  cbv zeta. split.
  - intros [|[|[|[|i]]]] Hi; [..|lia]; cbn [qget q0 q1 q2 q3]; split; try (apply D; lia); try reflexivity; try inrange. left. reflexivity.
  - exists 0%nat. split; [lia|]. cbn [qget q0]. dv. pw. lra.
Qed.
Print Assumptions orthographic_accuracy.
Print Assumptions perspective_accuracy.
Print Assumptions orthographic_wh_accuracy.
Print Assumptions perspective_wh_accuracy.
Print Assumptions perspective_xfov_accuracy.
Print Assumptions perspective_yfov_accuracy.
Print Assumptions quaternion_norm_accuracy.
Print Assumptions quaternion_inverse_accuracy.
Print Assumptions quaternion_inverse_expression_accuracy.
Print Assumptions perspective_overflow_refuted.
Print Assumptions inverse_forms_refuted.
