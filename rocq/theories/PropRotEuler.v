(** Euler angles: C21, C22, C23. *)
From Coq Require Import Reals List Bool Lra Lia ZArith.
From Verif Require Import Base RInst ScalarModel ScalarProofs MiscModel MiscSpec QuatModel QuatSpec QuatProofs RotModel RotSpec RotFacts RotProofs RotQuat RotAngle RotEuler.
Import ListNotations.
Open Scope R_scope.

(** ** C21 *)
(** the axes of an order, by name *)
Definition axis_of (o : euler_order) (k : nat) : Z := nth k (eo_name o) 0%Z.
Theorem euler_is_three_rotations : forall m a0 a1 a2 o, holds3 m ->
  exists m' m0 m1 m2, matrix_rotation_euler m a0 a1 a2 (eo_value o) = Ok m' /\
    matrix_rotation_world_axis m (axis_of o 0) a0 = Ok m0 /\
    matrix_rotation_world_axis m (axis_of o 1) a1 = Ok m1 /\
    matrix_rotation_world_axis m (axis_of o 2) a2 = Ok m2 /\
    frame 3 m m' /\ is_rotation m' /\ forall v, act m' v = act m2 (act m1 (act m0 v)).
Proof.
  intros m a0 a1 a2 o H. destruct (rotation_euler_b m a0 a1 a2 o H) as (m' & E & F & B).
  destruct (axes_range o) as (R0 & R1 & R2).
  destruct (rotation_world_axis_b m _ a0 H R0) as (m0 & E0 & F0 & B0).
  destruct (rotation_world_axis_b m _ a1 H R1) as (m1 & E1 & F1 & B1).
  destruct (rotation_world_axis_b m _ a2 H R2) as (m2 & E2 & F2 & B2).
  exists m', m0, m1, m2. assert (P := euler_product_b m m' a0 a1 a2 o B ltac:(apply F)).
  assert (A : forall v, act m' v = act m2 (act m1 (act m0 v))).
  { intros v. rewrite (act_actb _ _ _ P), (act_actb _ _ _ B2), (act_actb _ _ _ B1), (act_actb _ _ _ B0), !actb_prod. auto. }
  split; [exact E|]. split; [exact E0|]. split; [exact E1|]. split; [exact E2|]. split; [exact F|]. split; [|exact A].
  assert (K : forall mm a t, (0 <= a <= 2)%Z -> block mm (baxis a (sin t) (cos t)) -> is_rotation mm).
  { intros mm a t Ha Bm. assert (Bm' : block mm (baa (cardinal a) (sin t) (cos t))).
    { intros i j Hi Hj. rewrite Bm, baxis_cardinal by auto. auto. }
    apply (block_rotation _ _ Bm'). apply baa_orth; [apply cardinal_unit|apply sc]. }
  destruct (K m0 _ _ R0 B0) as [D0 T0], (K m1 _ _ R1 B1) as [D1 T1], (K m2 _ _ R2 B2) as [D2 T2].
  split; intros; rewrite !A; [rewrite D2, D1, D0; auto|rewrite T2, T1, T0; auto].
Qed.
Theorem euler_quaternion : forall m a0 a1 a2 o qo q, holds3 m ->
  let q' := quaternion_rotation_euler qo q a0 a1 a2 (eo_value o) in
  unit_quat qo q' /\
  exists m1 m2, matrix_rotation_quaternion m qo q' = Ok m1 /\ matrix_rotation_euler m a0 a1 a2 (eo_value o) = Ok m2 /\ same_action m1 m2.
Proof.
  intros m a0 a1 a2 o qo q H. cbv zeta. unfold unit_quat. rewrite quaternion_euler_b.
  destruct (axes_range o) as (R0 & R1 & R2).
  assert (NM : forall p r : ham R, hnorm p = 1 -> hnorm r = 1 -> hnorm (hmul p r) = 1).
  { intros [a b c d] [w x y z]. unfold hnorm, hmul. cbn [hw hx hy hz add mul sub ROps]. intros P Q.
    transitivity ((a * a + b * b + c * c + d * d) * (w * w + x * x + y * y + z * z)); [ring|rewrite P, Q; ring]. }
  assert (U0 := haa_unit _ a0 (cardinal_unit (first_axis o))). assert (U1 := haa_unit _ a1 (cardinal_unit (second_axis o))). assert (U2 := haa_unit _ a2 (cardinal_unit (third_axis o))).
  split; [auto|].
  destruct (rotation_quaternion_b m qo (quaternion_rotation_euler qo q a0 a1 a2 (eo_value o)) H) as (m1 & E1 & F1 & B1).
  destruct (rotation_euler_b m a0 a1 a2 o H) as (m2 & E2 & F2 & B2).
  exists m1, m2. split; auto. split; auto. apply same_action_be.
  assert (P := euler_product_b m m2 a0 a1 a2 o B2 ltac:(apply F2)).
  intros i j Hi Hj. rewrite P, B1, quaternion_euler_b by auto. rewrite bquat_mul by auto.
  unfold bprod. rewrite !bquat_mul by (auto; lia). unfold bprod.
  rewrite !haa_block by (auto using cardinal_unit; lia). rewrite !baxis_cardinal by (auto; lia). ring.
Qed.

(** ** C22 *)
Theorem euler_round_trip : forall m o tol, holds3 m -> is_rotation m -> 0 <= tol ->
  exists a0 a1 a2, matrix_to_euler m (eo_value o) tol = Ok (a0, a1, a2) /\
    (tol < gimbal m o \/ gimbal m o = 0 ->
       forall n, holds3 n -> exists n', matrix_rotation_euler n a0 a1 a2 (eo_value o) = Ok n' /\ same_action n' m) /\
    (gimbal m o <= tol -> a0 = 0).
Proof.
  intros m o tol H Rm T. assert (O : orth (be m)) by (apply orth_rotation; auto).
  destruct (matrix_to_euler_b m o tol H) as (x0 & x1 & x2 & E & Em).
  assert (PO := permuted_orth m o O). rewrite gimbal_reach.
  set (a := unpack_euler (eo_value o)) in *.
  exists (sg a x0), (sg a x1), (sg a x2). split; auto. split.
  - intros W n Hn. destruct (rotation_euler_b n (sg a x0) (sg a x1) (sg a x2) o Hn) as (n' & En & _ & Bn).
    exists n'. split; auto. fold a in Bn.
    assert (SG : forall x, sg a (sg a x) = x). { intros x. unfold sg. destruct (ea_odd a); ring. }
    rewrite !SG in Bn. assert (K := angles_of_ok _ _ _ _ _ _ PO T E W).
    assert (Q : forall i j, (i < 3)%nat -> (j < 3)%nat -> be n' (perm a i) (perm a j) = be m (perm a i) (perm a j)).
    { intros i j Hi Hj. assert (B := Bn i j Hi Hj). cbn [be mbasis mel] in B. rewrite B, K by auto. auto. }
    apply same_action_be. clear - Q. intros i j Hi Hj. apply nine in Q. unfold a in Q.
    destruct o; unpack_in Q; unfold perm in Q; unpack_in Q; destruct Q as (Q0 & Q1 & Q2 & Q3 & Q4 & Q5 & Q6 & Q7 & Q8); cases3 Hi; cases3 Hj; assumption.
  - intros G. assert (Z : x0 = 0).
    { revert E G. unfold angles_of, reach. assert (CL := orth_cols _ PO). unfold cols in CL. destruct PO as (A & _).
      destruct CL as (L1 & _).
      destruct (ea_repeat a).
      - replace (1 - permuted m a 0%nat 0%nat * permuted m a 0%nat 0%nat) with (permuted m a 1%nat 0%nat * permuted m a 1%nat 0%nat + permuted m a 2%nat 0%nat * permuted m a 2%nat 0%nat) by lra.
        cbv zeta. intros E G. apply Rltb_false in G. rewrite G in E. congruence.
      - replace (1 - permuted m a 0%nat 2%nat * permuted m a 0%nat 2%nat) with (permuted m a 0%nat 0%nat * permuted m a 0%nat 0%nat + permuted m a 0%nat 1%nat * permuted m a 0%nat 1%nat) by lra.
        cbv zeta. intros E G. apply Rltb_false in G. rewrite G in E. congruence. }
    rewrite Z. unfold sg. destruct (ea_odd a); ring.
Qed.
(** the same through a quaternion *)
Theorem quaternion_euler_round_trip : forall qo q o tol, unit_quat qo q -> 0 <= tol ->
  exists a0 a1 a2 m, quaternion_to_euler qo q (eo_value o) tol = Ok (a0, a1, a2) /\
    matrix_rotation_quaternion tmp33 qo q = Ok m /\
    (tol < gimbal m o \/ gimbal m o = 0 ->
       forall po p, let q' := quaternion_rotation_euler po p a0 a1 a2 (eo_value o) in
       parts po q' = parts qo q \/ parts po q' = hmap neg (parts qo q)).
Proof.
  intros qo q o tol U T. assert (H : holds3 (@tmp33 R _)) by (unfold holds3; cbn; lia).
  destruct (rotation_quaternion_b tmp33 qo q H) as (m & E & F & B).
  assert (Rm : is_rotation m) by (apply (block_rotation _ _ B); apply bquat_orth; exact U).
  assert (Hm : holds3 m). { destruct F as (F1 & F2 & _). unfold holds3. rewrite F1, F2. exact H. }
  destruct (euler_round_trip m o tol Hm Rm T) as (a0 & a1 & a2 & Ea & K & _).
  exists a0, a1, a2, m. unfold quaternion_to_euler. rewrite E. split; [exact Ea|]. split; [reflexivity|].
  intros W po p. cbv zeta. destruct (K W tmp33 H) as (n' & En & S).
  destruct (euler_quaternion tmp33 a0 a1 a2 o po p H) as (U' & m1 & m2 & E1 & E2 & S').
  assert (m2 = n') by congruence. subst m2.
  destruct (rotation_quaternion_b tmp33 po (quaternion_rotation_euler po p a0 a1 a2 (eo_value o)) H) as (x & X & _ & B'). rewrite X in E1. injection E1 as ->.
  assert (Q : quads (be m) (parts qo q)). { assert (A := unit_quads _ U). unfold quads, tr in *. rewrite !B by lia. exact A. }
  assert (Q' : quads (be m) (parts po (quaternion_rotation_euler po p a0 a1 a2 (eo_value o)))).
  { assert (A := unit_quads _ U'). assert (S2 : same_action m m1). { intros v. rewrite S', S. auto. }
    apply same_action_be in S2. unfold quads, tr in *. rewrite !S2, !B' by lia. exact A. }
  exact (quads_sign _ _ _ Q Q').
Qed.

(** ** C23 *)
Definition entry (r : out (mx R)) (i j : nat) : R := match r with Ok m => mel m i j | _ => 0 end.
(** the Euler matrix as a function of one of the angles *)
Definition vary (m : mx R) (o : euler_order) (axis : Z) (a0 a1 a2 : R) (x : R) : out (mx R) :=
  match axis with
  | 0%Z => matrix_rotation_euler m x a1 a2 (eo_value o)
  | 1%Z => matrix_rotation_euler m a0 x a2 (eo_value o)
  | _ => matrix_rotation_euler m a0 a1 x (eo_value o)
  end.
Definition angle_at (axis : Z) (a0 a1 a2 : R) : R := match axis with 0%Z => a0 | 1%Z => a1 | _ => a2 end.
(** the three axes of the order are distinct, and form an odd permutation of (x, y, z) *)
Definition distinct_axes (o : euler_order) : Prop := axis_of o 0 <> axis_of o 2.
Definition odd_order (o : euler_order) : Prop := perm_sign (axis_of o 0) (axis_of o 1) (axis_of o 2) = (-1)%Z.

Definition bder (axis : Z) (s0 c0 s1 c1 s2 c2 : R) : nat -> nat -> R :=
  match axis with
  | 0%Z => b3 0 0 0 (s1*(c0*c2) + s0*s2) (s1*(c0*s2) - s0*c2) (c0*c1) (- s1*(s0*c2) + c0*s2) (- s1*(s0*s2) - c0*c2) (- s0*c1)
  | 1%Z => b3 (- s1*c2) (- s1*s2) (- c1) (c1*(s0*c2)) (c1*(s0*s2)) (- s0*s1) (c1*(c0*c2)) (c1*(c0*s2)) (- c0*s1)
  | _ => b3 (- c1*s2) (c1*c2) 0 (- s1*(s0*s2) - c0*c2) (s1*(s0*c2) - c0*s2) 0 (- s1*(c0*s2) + s0*c2) (s1*(c0*c2) + s0*s2) 0
  end.
Lemma euler_derivatives_b m axis a0 a1 a2 o : holds3 m -> (0 <= axis <= 2)%Z -> distinct_axes o ->
  let a := unpack_euler (eo_value o) in
  exists m', matrix_rotation_euler_derivatives m axis a0 a1 a2 (eo_value o) = Ok m' /\ frame 3 m m' /\
    block (Mx 3 3 row_basis (permuted m' a))
      (bder axis (sin (sg a a0)) (cos (sg a a0)) (sin (sg a a1)) (cos (sg a a1)) (sin (sg a a2)) (cos (sg a a2))).
Proof.
  intros H Ha D. unfold matrix_rotation_euler_derivatives. rewrite (holds_ok m H).
  destruct (range3 axis Ha) as [->|[->| ->]]; cbn [Z.leb Z.compare Pos.compare Pos.compare_cont andb require bind Z.eqb Pos.eqb];
  destruct o; try (exfalso; apply D; reflexivity); cbv zeta; unpack; unfold sg; unpack; cbn [negb require bind]; unfold permuted, perm; unpack;
  (eexists; split; [reflexivity|split; [frm|unfold bder; intros i j Hi Hj; cases3 Hi; cases3 Hj; cbn [be mbasis mel]; bsimp; cbn [neg add mul sub zero ROps msin mcos RMath]; ring]]).
Qed.
Lemma deriv_form e A B C x : derivable_pt_lim (fun y => A * sin (e * y) + B * cos (e * y) + C) x (e * (A * cos (e * x) - B * sin (e * x))).
Proof.
  assert (L : derivable_pt_lim (fun y => e * y) x e).
  { assert (L := derivable_pt_lim_scal id e x 1 (derivable_pt_lim_id x)). rewrite Rmult_1_r in L. exact L. }
  assert (S : derivable_pt_lim (fun y => sin (e * y)) x (cos (e * x) * e)).
  { apply (derivable_pt_lim_comp (fun y => e * y) sin x e (cos (e * x)) L). apply derivable_pt_lim_sin. }
  assert (K : derivable_pt_lim (fun y => cos (e * y)) x (- sin (e * x) * e)).
  { apply (derivable_pt_lim_comp (fun y => e * y) cos x e (- sin (e * x)) L). apply derivable_pt_lim_cos. }
  replace (e * (A * cos (e * x) - B * sin (e * x))) with (A * (cos (e * x) * e) + B * (- sin (e * x) * e) + 0) by ring.
  apply (derivable_pt_lim_plus (fun y => A * sin (e * y) + B * cos (e * y)) (fun _ => C)); [|apply derivable_pt_lim_const].
  apply (derivable_pt_lim_plus (fun y => A * sin (e * y)) (fun y => B * cos (e * y))).
  - apply (derivable_pt_lim_scal (fun y => sin (e * y)) A x _ S).
  - apply (derivable_pt_lim_scal (fun y => cos (e * y)) B x _ K).
Qed.
Lemma deriv_ext f g x l l' : (forall y, f y = g y) -> l = l' -> derivable_pt_lim g x l' -> derivable_pt_lim f x l.
Proof.
  intros E -> H eps He. destruct (H eps He) as [d Hd]. exists d. intros h Hh Hs. rewrite !E. auto.
Qed.
(** the i,j element as a function of the varied angle *)
Definition bvary (axis : Z) (s0 c0 s1 c1 s2 c2 : R) (e y : R) : nat -> nat -> R :=
  match axis with
  | 0%Z => beul false (sin (e * y)) (cos (e * y)) s1 c1 s2 c2
  | 1%Z => beul false s0 c0 (sin (e * y)) (cos (e * y)) s2 c2
  | _ => beul false s0 c0 s1 c1 (sin (e * y)) (cos (e * y))
  end.
Definition bat (axis : Z) (s0 c0 s1 c1 s2 c2 : R) (e x : R) : nat -> nat -> R :=
  match axis with
  | 0%Z => bder axis (sin (e * x)) (cos (e * x)) s1 c1 s2 c2
  | 1%Z => bder axis s0 c0 (sin (e * x)) (cos (e * x)) s2 c2
  | _ => bder axis s0 c0 s1 c1 (sin (e * x)) (cos (e * x))
  end.
Lemma bvary_deriv axis s0 c0 s1 c1 s2 c2 e x i j : (0 <= axis <= 2)%Z -> (i < 3)%nat -> (j < 3)%nat ->
  derivable_pt_lim (fun y => bvary axis s0 c0 s1 c1 s2 c2 e y i j) x (e * bat axis s0 c0 s1 c1 s2 c2 e x i j).
Proof.
  intros Ha Hi Hj.
  assert (L : forall F : R -> R -> R, (forall s c, F s c = (F 1 0 - F 0 0) * s + (F 0 1 - F 0 0) * c + F 0 0) -> forall d,
     d = (F 1 0 - F 0 0) * cos (e * x) - (F 0 1 - F 0 0) * sin (e * x) ->
     derivable_pt_lim (fun y => F (sin (e * y)) (cos (e * y))) x (e * d)).
  { intros F HF d ->. eapply deriv_ext; [intros y; apply HF|reflexivity|apply deriv_form]. }
  destruct (range3 axis Ha) as [->|[->| ->]]; unfold bvary, bat.
  - apply (L (fun s c => beul false s c s1 c1 s2 c2 i j)); [intros s c|]; unfold beul, bder; cases3 Hi; cases3 Hj; cbn [b3]; ring.
  - apply (L (fun s c => beul false s0 c0 s c s2 c2 i j)); [intros s c|]; unfold beul, bder; cases3 Hi; cases3 Hj; cbn [b3]; ring.
  - apply (L (fun s c => beul false s0 c0 s1 c1 s c i j)); [intros s c|]; unfold beul, bder; cases3 Hi; cases3 Hj; cbn [b3]; ring.
Qed.
Lemma perm_onto o i : (i < 3)%nat -> exists i', (i' < 3)%nat /\ perm (unpack_euler (eo_value o)) i' = i.
Proof.
  intros Hi. destruct o; unpack; cases3 Hi;
  first [exists 0%nat; split; [lia|reflexivity]|exists 1%nat; split; [lia|reflexivity]|exists 2%nat; split; [lia|reflexivity]].
Qed.
Definition eps (o : euler_order) : R := IZR (perm_sign (axis_of o 0) (axis_of o 1) (axis_of o 2)).
Lemma sg_eps o x : distinct_axes o -> sg (unpack_euler (eo_value o)) x = eps o * x.
Proof.
  intros D. unfold sg, eps. destruct o; try (exfalso; apply D; reflexivity); unpack;
  match goal with |- context [IZR ?a] => let f := eval vm_compute in a in change a with f end; ring.
Qed.
(** For an even order (xyz, yzx, zxy) the returned matrix holds the partial derivatives of the
    rotation; for an odd one (xzy, yxz, zyx) it holds their negatives. *)
Theorem euler_derivatives_signed : forall m o axis a0 a1 a2, holds3 m -> (0 <= axis <= 2)%Z -> distinct_axes o ->
  exists d, matrix_rotation_euler_derivatives m axis a0 a1 a2 (eo_value o) = Ok d /\
  forall i j, (i < 3)%nat -> (j < 3)%nat ->
    derivable_pt_lim (fun x => entry (vary m o axis a0 a1 a2 x) i j) (angle_at axis a0 a1 a2) (eps o * mel d i j).
Proof.
  intros m o axis a0 a1 a2 H Ha D.
  destruct (euler_derivatives_b m axis a0 a1 a2 o H Ha D) as (d & E & F & B). exists d. split; auto.
  assert (NR : ea_repeat (unpack_euler (eo_value o)) = false) by (destruct o; try (exfalso; apply D; reflexivity); reflexivity).
  assert (Key : forall i j, (i < 3)%nat -> (j < 3)%nat ->
    derivable_pt_lim (fun x => match vary m o axis a0 a1 a2 x with Ok m' => be m' (perm (unpack_euler (eo_value o)) i) (perm (unpack_euler (eo_value o)) j) | _ => 0 end)
      (angle_at axis a0 a1 a2) (eps o * be d (perm (unpack_euler (eo_value o)) i) (perm (unpack_euler (eo_value o)) j))).
  { intros i j Hi Hj. assert (Bij := B i j Hi Hj). unfold permuted in Bij. cbn [be mbasis mel] in Bij. rewrite Bij.
    rewrite !sg_eps by auto.
    eapply deriv_ext; [| |apply (bvary_deriv axis (sin (eps o * a0)) (cos (eps o * a0)) (sin (eps o * a1)) (cos (eps o * a1)) (sin (eps o * a2)) (cos (eps o * a2)) (eps o) (angle_at axis a0 a1 a2) i j Ha Hi Hj)].
    - intros y. destruct (range3 axis Ha) as [->|[->| ->]]; unfold vary, bvary.
      + destruct (rotation_euler_b m y a1 a2 o H) as (x & -> & _ & Bx). assert (G := Bx i j Hi Hj). cbn [be mbasis mel] in G. rewrite G, NR, !sg_eps by auto. auto.
      + destruct (rotation_euler_b m a0 y a2 o H) as (x & -> & _ & Bx). assert (G := Bx i j Hi Hj). cbn [be mbasis mel] in G. rewrite G, NR, !sg_eps by auto. auto.
      + destruct (rotation_euler_b m a0 a1 y o H) as (x & -> & _ & Bx). assert (G := Bx i j Hi Hj). cbn [be mbasis mel] in G. rewrite G, NR, !sg_eps by auto. auto.
    - destruct (range3 axis Ha) as [->|[->| ->]]; reflexivity. }
  assert (BV : forall x, exists m', vary m o axis a0 a1 a2 x = Ok m' /\ mbasis m' = mbasis m).
  { intros x. destruct (range3 axis Ha) as [->|[->| ->]]; unfold vary.
    - destruct (rotation_euler_b m x a1 a2 o H) as (m' & E' & F' & _). exists m'. split; auto. apply F'.
    - destruct (rotation_euler_b m a0 x a2 o H) as (m' & E' & F' & _). exists m'. split; auto. apply F'.
    - destruct (rotation_euler_b m a0 a1 x o H) as (m' & E' & F' & _). exists m'. split; auto. apply F'. }
  destruct F as (_ & _ & Fb & _).
  intros i j Hi Hj. destruct (perm_onto o i Hi) as (i' & Hi' & Pi). destruct (perm_onto o j Hj) as (j' & Hj' & Pj).
  rewrite (be_mel d), Fb. destruct (mbasis m) eqn:MB.
  - assert (K := Key i' j' Hi' Hj'). rewrite Pi, Pj in K. eapply deriv_ext; [|reflexivity|exact K].
    intros y. unfold entry. destruct (BV y) as (m' & -> & Hb). rewrite be_mel, Hb. auto.
  - assert (K := Key j' i' Hj' Hi'). rewrite Pi, Pj in K. eapply deriv_ext; [|reflexivity|exact K].
    intros y. unfold entry. destruct (BV y) as (m' & -> & Hb). rewrite be_mel, Hb. auto.
Qed.
Theorem euler_derivatives_even : forall m o axis a0 a1 a2, holds3 m -> (0 <= axis <= 2)%Z -> distinct_axes o -> ~ odd_order o ->
  exists d, matrix_rotation_euler_derivatives m axis a0 a1 a2 (eo_value o) = Ok d /\
  forall i j, (i < 3)%nat -> (j < 3)%nat ->
    derivable_pt_lim (fun x => entry (vary m o axis a0 a1 a2 x) i j) (angle_at axis a0 a1 a2) (mel d i j).
Proof.
  intros m o axis a0 a1 a2 H Ha D NO. destruct (euler_derivatives_signed m o axis a0 a1 a2 H Ha D) as (d & E & K).
  exists d. split; auto. intros i j Hi Hj. assert (X := K i j Hi Hj).
  assert (Ee : eps o = 1). { unfold eps. destruct o; try (exfalso; apply D; reflexivity); try (exfalso; apply NO; reflexivity); match goal with |- context [IZR ?a] => let f := eval vm_compute in a in change a with f end; reflexivity. }
  rewrite Ee, Rmult_1_l in X. exact X.
Qed.
(** the documented claim fails for odd orders: at order xzy and zero angles, the derivative with
    respect to the first angle has the opposite sign *)
Theorem euler_derivatives_odd_refuted : exists m o axis a0 a1 a2 d i j,
  holds3 m /\ (0 <= axis <= 2)%Z /\ distinct_axes o /\
  matrix_rotation_euler_derivatives m axis a0 a1 a2 (eo_value o) = Ok d /\ (i < 3)%nat /\ (j < 3)%nat /\
  ~ derivable_pt_lim (fun x => entry (vary m o axis a0 a1 a2 x) i j) (angle_at axis a0 a1 a2) (mel d i j).
Proof.
  set (m := Mx 3 3 row_basis (fun _ _ => 0)). assert (H : holds3 m) by (unfold holds3; cbn; lia).
  assert (D : distinct_axes eo_xzy) by (intros X; discriminate X).
  destruct (euler_derivatives_signed m eo_xzy 0 0 0 0 H ltac:(lia) D) as (d & E & K).
  exists m, eo_xzy, 0%Z, 0, 0, 0, d, 1%nat, 2%nat. split; auto. split; [lia|]. split; auto. split; auto. split; [lia|]. split; [lia|].
  intros X. assert (Y := K 1%nat 2%nat ltac:(lia) ltac:(lia)). assert (U := uniqueness_limite _ _ _ _ X Y).
  assert (Ed : mel d 1 2 = -1).
  { destruct (euler_derivatives_b m 0 0 0 0 eo_xzy H ltac:(lia) D) as (d' & E' & F' & B). rewrite E in E'. injection E' as <-.
    rewrite be_mel. destruct F' as (_ & _ & -> & _). cbn [mbasis m]. assert (G := B 2%nat 1%nat ltac:(lia) ltac:(lia)). unfold permuted in G. cbn [be mbasis mel] in G. unpack_in G. unfold perm in G; unpack_in G. unfold sg in G; unpack_in G.
    rewrite ?Ropp_0 in G. unfold bder in G. cbn [b3] in G. rewrite sin_0, cos_0 in G. lra. }
  unfold eps in U. change (perm_sign (axis_of eo_xzy 0) (axis_of eo_xzy 1) (axis_of eo_xzy 2)) with (-1)%Z in U. rewrite Ed in U. lra.
Qed.
(** and outside the 3x3 block of a larger matrix 1 is left on the diagonal *)
Theorem euler_derivatives_homogeneous_refuted : exists m o axis a0 a1 a2 d i,
  holds3 m /\ mrows m = 4%nat /\ mcols m = 4%nat /\ distinct_axes o /\ ~ odd_order o /\
  matrix_rotation_euler_derivatives m axis a0 a1 a2 (eo_value o) = Ok d /\ (i < 4)%nat /\
  ~ derivable_pt_lim (fun x => entry (vary m o axis a0 a1 a2 x) i i) (angle_at axis a0 a1 a2) (mel d i i).
Proof.
  set (m := Mx 4 4 row_basis (fun _ _ => 0)). assert (H : holds3 m) by (unfold holds3; cbn; lia).
  assert (D : distinct_axes eo_xyz) by (intros X; discriminate X).
  destruct (euler_derivatives_b m 0 0 0 0 eo_xyz H ltac:(lia) D) as (d & E & F & B).
  exists m, eo_xyz, 0%Z, 0, 0, 0, d, 3%nat. split; auto. split; auto. split; auto. split; auto. split; [intros X; discriminate X|]. split; auto. split; [lia|].
  intros X. destruct F as (_ & _ & _ & F). rewrite (F 3%nat 3%nat) in X by lia. cbn [Nat.eqb] in X.
  assert (Y : derivable_pt_lim (fun x => entry (vary m eo_xyz 0 0 0 0 x) 3 3) (angle_at 0 0 0 0) 0).
  { eapply deriv_ext with (g := fun _ => 1); [|reflexivity|apply derivable_pt_lim_const].
    intros y. unfold entry, vary. destruct (rotation_euler_b m y 0 0 eo_xyz H) as (x & -> & Fx & _). destruct Fx as (_ & _ & _ & Fx).
    rewrite (Fx 3%nat 3%nat) by lia. reflexivity. }
  assert (U := uniqueness_limite _ _ _ _ X Y). lra.
Qed.
(** repeating orders, axes out of range and small matrices are rejected *)
Theorem euler_bad_arguments : forall (m : mx R) axis a0 a1 a2 o tol,
  ((axis < 0 \/ 2 < axis)%Z -> matrix_rotation_euler_derivatives m axis a0 a1 a2 (eo_value o) = Throw EInvalidArgument) /\
  (holds3 m -> ~ distinct_axes o -> matrix_rotation_euler_derivatives m axis a0 a1 a2 (eo_value o) = Throw EInvalidArgument) /\
  (~ holds3 m -> matrix_rotation_euler m a0 a1 a2 (eo_value o) = Throw EMinimumMatrixSize /\ matrix_to_euler m (eo_value o) tol = Throw EMinimumMatrixSize).
Proof.
  intros m axis a0 a1 a2 o tol. split; [|split]; intros.
  - unfold matrix_rotation_euler_derivatives, require. destruct (Z.leb_spec 0 axis), (Z.leb_spec axis 2); cbn; auto; lia.
  - unfold matrix_rotation_euler_derivatives, require. destruct (Z.leb 0 axis && Z.leb axis 2)%Z; [|reflexivity]. cbn [bind].
    rewrite (holds_ok m H). destruct o; try (exfalso; apply H0; intros X; discriminate X); reflexivity.
  - unfold matrix_rotation_euler, matrix_to_euler, check_linear_3D, check_minimum_size, require.
    destruct (Nat.leb_spec 3 (mrows m)), (Nat.leb_spec 3 (mcols m)); cbn; auto. destruct H. split; auto.
Qed.

(** ** Cases meeting the hypotheses *)
Definition turn_z : mx R := Mx 3 3 row_basis (b3 0 1 0 (-1) 0 0 0 0 1).
Definition lock_xyz : mx R := Mx 3 3 row_basis (b3 0 0 (-1) 0 1 0 1 0 0).
Example euler_cases : holds3 turn_z /\ is_rotation turn_z /\ gimbal turn_z eo_xyz = 1 /\ gimbal turn_z eo_zxz = 0 /\ gimbal turn_z eo_xzx = 1 /\
  is_rotation lock_xyz /\ gimbal lock_xyz eo_xyz = 0 /\ distinct_axes eo_yzx /\ ~ odd_order eo_yzx.
Proof.
  split; [unfold holds3; cbn; lia|].
  split; [apply orth_rotation; unfold orth, be; cbn; repeat split; ring|].
  split. { unfold gimbal, dot, act; cbn. apply sqrt_eq; lra. }
  split. { unfold gimbal, dot, act; cbn. apply sqrt_eq; lra. }
  split. { unfold gimbal, dot, act; cbn. apply sqrt_eq; lra. }
  split; [apply orth_rotation; unfold orth, be; cbn; repeat split; ring|].
  split. { unfold gimbal, dot, act; cbn. apply sqrt_eq; lra. }
  split; intros X; discriminate X.
Qed.

Print Assumptions euler_is_three_rotations.
Print Assumptions euler_quaternion.
Print Assumptions euler_round_trip.
Print Assumptions quaternion_euler_round_trip.
Print Assumptions euler_derivatives_signed.
Print Assumptions euler_derivatives_even.
Print Assumptions euler_derivatives_odd_refuted.
Print Assumptions euler_derivatives_homogeneous_refuted.
Print Assumptions euler_bad_arguments.
