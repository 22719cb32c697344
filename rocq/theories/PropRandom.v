(** C46: random unit vectors.  The random sources are arbitrary: every theorem holds for
    whatever they return. *)
From Coq Require Import Reals List Bool Lra Lia ZArith.
From Verif Require Import Base RInst ScalarModel ScalarProofs MiscModel RotModel RotProofs VecModel VecSpec VecProofs VecReal XfModel GeoModel GeoSpec PropQuatExp.
Import ListNotations.
Open Scope R_scope.

Lemma first_draw_skip pre d post : Forall (fun v => v <> [] /\ ~ nonzero v) pre -> d <> [] -> nonzero d ->
  first_draw (pre ++ d :: post) = Ok (Some d).
Proof.
  intros H D N. induction H as [|v l [V Z] H IH]; cbn [app first_draw].
  - rewrite vlength_squared_dot, R_dot_sum by auto. cbn [bind eqb ROps zero]. apply sp_nonzero in N. unfold Reqb. destruct (Req_EM_T _ _); [lra|auto].
  - rewrite vlength_squared_dot, R_dot_sum by auto. cbn [bind eqb ROps zero]. unfold Reqb. destruct (Req_EM_T _ _) as [E|E]; auto.
    exfalso. apply Z, sp_nonzero. assert (P := sp_pos v). lra.
Qed.
Lemma first_draw_none ds : Forall (fun v => v <> [] /\ ~ nonzero v) ds -> first_draw ds = Ok None.
Proof.
  intros H. induction H as [|v l [V Z] H IH]; cbn [first_draw]; auto.
  rewrite vlength_squared_dot, R_dot_sum by auto. cbn [bind eqb ROps zero]. unfold Reqb. destruct (Req_EM_T _ _) as [E|E]; auto.
  exfalso. apply Z, sp_nonzero. assert (P := sp_pos v). lra.
Qed.
(** the first draw that is not zero, normalised; zero draws are drawn again *)
Theorem random_unit_spec : forall (n : list R) pre d post, n <> [] -> Forall (fun v => length v = length n) (pre ++ d :: post) ->
  Forall (fun v => ~ nonzero v) pre -> nonzero d ->
  exists u, random_unit n (pre ++ d :: post) = Ok (Some u) /\ unit_vector u /\ length u = length n /\ exists s, 0 < s /\ u = scaled s d.
Proof.
  intros n pre d post N L Z D. unfold random_unit. rewrite vmin_ok by auto. cbn [bind]. apply Forall_app in L. destruct L as [L1 L2]. inversion L2 as [|? ? Ld _]; subst.
  assert (NE : forall v : list R, length v = length n -> v <> []) by (intros [|] E; [destruct n; [congruence|discriminate E]|discriminate]).
  rewrite first_draw_skip; auto. 2:{ rewrite Forall_forall in *. intros v I. split; auto. }
  cbn [bind]. rewrite vnormalize_scaled by auto. cbn [bind]. eexists. split; [reflexivity|]. split; [apply normalized_unit; auto|].
  split; [rewrite scaled_length; auto|]. exists (/ norm d). split; auto. apply Rinv_0_lt_compat, norm_pos; auto.
Qed.
Theorem random_unit_retries : forall (n : list R) ds, n <> [] -> Forall (fun v => length v = length n /\ ~ nonzero v) ds -> random_unit n ds = Ok None.
Proof.
  intros n ds N H. unfold random_unit. rewrite vmin_ok by auto. cbn [bind]. rewrite first_draw_none; auto.
  eapply Forall_impl; [|exact H]. intros v [L Z]. split; auto. destruct v; [destruct n; [congruence|discriminate L]|discriminate].
Qed.
Theorem random_unit_empty : forall (T : Type) (Op : Ops T) (MO : MathOps T) ds, random_unit (@nil T) ds = Throw EMinimumVectorSize.
Proof. reflexivity. Qed.

(** ** The cone *)
Lemma comb_el s (u : list R) t v i : length u = length v -> (i < length u)%nat -> nth i (comb s u t v) 0 = s * nth i u 0 + t * nth i v 0.
Proof.
  intros L. revert i v L. induction u as [|a u IH]; intros i [|b v] L I; try discriminate; cbn in *; try lia.
  destruct i; cbn; auto. apply IH; lia.
Qed.
Lemma list_eq (u v : list R) : length u = length v -> (forall i, (i < length u)%nat -> nth i u 0 = nth i v 0) -> u = v.
Proof. intros L H. apply (nth_ext _ _ 0 0); auto. Qed.
Lemma scaled_el s (u : list R) i : nth i (scaled s u) 0 = s * nth i u 0.
Proof. unfold scaled. replace 0 with (mul s 0) at 1 by (cbn; ring). rewrite map_nth. reflexivity. Qed.
Lemma comb_self s t (d : list R) x y (e : list R) : length d = length e ->
  comb s d t (comb x d y e) = comb (s + t * x) d (t * y) e.
Proof.
  intros L. assert (L2 : length (comb x d y e) = length d) by (apply comb_length; auto).
  apply list_eq; [rewrite !comb_length; auto; rewrite comb_length; auto|]. intros i I. rewrite comb_length in I by auto.
  rewrite !comb_el by (auto; rewrite ?comb_length; auto). cbn. ring.
Qed.
Lemma comb_scaled k s (d : list R) t e : length d = length e -> scaled k (comb s d t e) = comb (k * s) d (k * t) e.
Proof.
  intros L. apply list_eq; [rewrite scaled_length, !comb_length; auto|]. intros i I. rewrite scaled_length, comb_length in I by auto.
  rewrite scaled_el, !comb_el by auto. ring.
Qed.
Lemma comb_dot s (d : list R) t e w : length d = length e -> sum_prod (comb s d t e) w = s * sum_prod d w + t * sum_prod e w.
Proof. intros L. rewrite (sum_prod_comb RR) by auto. reflexivity. Qed.
Lemma comb_unit b (d e : list R) : length d = length e -> unit_vector d -> unit_vector e -> orthogonal e d ->
  unit_vector (comb (cos b) d (sin b) e) /\ sum_prod (comb (cos b) d (sin b) e) d = cos b.
Proof.
  unfold unit_vector, orthogonal. intros L D E O. rewrite !comb_dot by auto. rewrite !(sp_comm _ (comb _ _ _ _)), !comb_dot by auto.
  rewrite (sp_comm d e). rewrite D, E, O. assert (P := sin2_cos2 b). unfold Rsqr in P. split; lra.
Qed.
Lemma vadd_comb s (u : list R) t v : length u = length v -> vadd (vscale s u) (vscale t v) = Ok (comb s u t v).
Proof. intros L. rewrite !(vscale_scaled RR). rewrite vadd_zip by (rewrite !scaled_length; auto). reflexivity. Qed.
Lemma opening_range a O : 0 < a -> 0 < O <= PI / 2 -> 0 < opening a O <= a.
Proof.
  intros A H. assert (P := PI_RGT_0). unfold opening. assert (0 < O / (PI / 2)) by (apply Rdiv_lt_0_compat; lra).
  assert (O / (PI / 2) <= 1) by (apply Rmult_le_reg_r with (PI / 2); [lra|]; unfold Rdiv at 1; rewrite Rmult_assoc, Rinv_l; lra). split; [apply Rmult_lt_0_compat; auto|nra].
Qed.
(** a direction at angle O from the axis is moved to angle a*O/(pi/2), in the same plane *)
Lemma cone_run (d e : list R) a O : d <> [] -> length d = length e -> unit_vector d -> unit_vector e -> orthogonal e d ->
  0 < a <= PI / 2 -> 0 < O <= PI / 2 ->
  random_cone_nD (comb (cos O) d (sin O) e) d a = Ok (comb (cos (opening a O)) d (sin (opening a O)) e).
Proof.
  intros D L Ud Ue Oe A HO. assert (PP := PI_RGT_0). destruct (comb_unit O d e L Ud Ue Oe) as [Un Cn].
  assert (Ln := comb_length (cos O) d (sin O) e L).
  unfold random_cone_nD. rewrite R_dot_sum; [|intros Z; rewrite Z in Ln; destruct d; [congruence|discriminate Ln]|auto]. rewrite Cn. cbn [bind].
  assert (C0 : 0 <= cos O) by (apply cos_ge_0; lra). cbn [ltb ROps zero]. unfold Rltb. destruct (Rlt_dec (cos O) 0); [lra|].
  assert (AC : acos_safe (cos O) = O).
  { destruct (acos_safe_l (cos O)) as (R1 & R2 & _). assert (B := COS_bound O). specialize (R2 B).
    apply (cos_inj (acos_safe (cos O)) O); lra. }
  rewrite AC, vadd_comb by auto. cbn [bind]. rewrite (vdiv_scaled). rewrite comb_self by auto. rewrite comb_scaled by auto.
  assert (SO : 0 < sin O) by (apply sin_gt_0; lra). assert (SA : 0 < sin a) by (apply sin_gt_0; lra).
  cbn [msin mcos RMath mpi one sub div mul ROps neg].
  replace (/ sin O * (sin (O - a) + sin a * cos O)) with (cos a) by (rewrite sin_minus; field; lra).
  replace (/ sin O * (sin a * sin O)) with (sin a) by (field; lra).
  rewrite vadd_comb by (rewrite comb_length; auto). cbn [bind]. rewrite vdiv_scaled, comb_self, comb_scaled by auto. f_equal.
  set (b := opening a O). replace (O / (PI / two)) with (O / (PI / 2)) by (unfold two; cbn; f_equal; f_equal; lra).
  replace (O / (PI / 2) * a) with b by (unfold b, opening; ring). replace ((1 - O / (PI / 2)) * a) with (a - b) by (unfold b, opening; ring).
  f_equal; [rewrite sin_minus; field; lra|field; lra].
Qed.
Lemma flip_run (n d : list R) a : sum_prod n d < 0 -> n <> [] -> length n = length d -> random_cone_nD n d a = random_cone_nD (vneg n) d a.
Proof.
  intros H N L. assert (Ln : length (vneg n) = length n) by (rewrite vneg_map, map_length; auto).
  assert (E : sum_prod (vneg n) d = - sum_prod n d).
  { replace (vneg n) with (scaled (-1) n) by (rewrite vneg_map; apply map_ext; intros; cbn; ring). rewrite sp_scaled. ring. }
  unfold random_cone_nD. rewrite !R_dot_sum; auto; [|intros Z; rewrite Z in Ln; destruct n; [congruence|discriminate Ln]|congruence].
  cbn [bind ltb ROps zero]. rewrite E. unfold Rltb. destruct (Rlt_dec (sum_prod n d) 0); [|lra]. destruct (Rlt_dec (- sum_prod n d) 0); [lra|]. reflexivity.
Qed.
(** every unit vector not parallel to d lies in the plane of d and a unit vector orthogonal to it *)
Lemma decompose (n d : list R) : length n = length d -> unit_vector n -> unit_vector d -> (forall s, n <> scaled s d) -> 0 <= sum_prod n d ->
  exists O e, length d = length e /\ unit_vector e /\ orthogonal e d /\ 0 < O <= PI / 2 /\ n = comb (cos O) d (sin O) e.
Proof.
  intros L Un Ud NP P. unfold unit_vector, orthogonal in *. set (c := sum_prod n d) in *.
  set (x := comb 1 n (- c) d). assert (Lx : length x = length d) by (unfold x; rewrite comb_length; auto).
  assert (Xd : sum_prod x d = 0) by (unfold x; rewrite comb_dot, Ud by auto; fold c; ring).
  assert (Xn : sum_prod x n = 1 - c * c) by (unfold x; rewrite comb_dot, Un, (sp_comm d n) by auto; fold c; ring).
  assert (Xx : sum_prod x x = 1 - c * c) by (unfold x at 1; rewrite comb_dot, (sp_comm n x), (sp_comm d x), Xn, Xd by auto; ring).
  assert (NZ : 0 < 1 - c * c).
  { rewrite <- Xx. destruct (Rle_lt_or_eq_dec 0 _ (sp_pos x)) as [G|Z]; auto. exfalso. apply (NP c). apply list_eq; [rewrite scaled_length; auto|].
    intros i I. rewrite scaled_el. destruct (Req_dec (nth i x 0) 0) as [E|E].
    - unfold x in E. rewrite comb_el in E by auto. lra.
    - exfalso. assert (nonzero x) by (exists (nth i x 0); split; auto; apply nth_In; lia). apply sp_nonzero in H. lra. }
  set (s := sqrt (1 - c * c)). assert (S0 : 0 < s) by (apply sqrt_lt_R0; auto). assert (S2 : s * s = 1 - c * c) by (apply sqrt_sqrt; lra).
  assert (C1 : c < 1) by nra. assert (PP := PI_RGT_0). assert (B : -1 <= c <= 1) by lra. exists (acos c), (scaled (/ s) x).
  assert (Hb := acos_bound c). assert (Cc := cos_acos c B). assert (Sc : sin (acos c) = s) by (rewrite sin_acos by lra; unfold s, Rsqr; reflexivity).
  split; [rewrite scaled_length; auto|]. split; [rewrite sp_scaled, sp_scaled_r, Xx, <- S2; field; lra|]. split; [rewrite sp_scaled, Xd; ring|]. split.
  - assert (N0 : acos c <> 0) by (intros Z; rewrite Z, sin_0 in Sc; lra). split; [lra|].
    destruct (Rle_dec (acos c) (PI / 2)); auto. exfalso. assert (cos (acos c) < 0) by (apply cos_lt_0; lra). lra.
  - apply list_eq; [rewrite comb_length; auto; rewrite scaled_length; auto|]. intros i I. rewrite comb_el by (rewrite ?scaled_length; lia).
    rewrite scaled_el, Sc, Cc. unfold x. rewrite comb_el by auto. field. lra.
Qed.
(** random_unit(n, d, a): for every draw not parallel to the axis d, a unit vector within
    angle a of d, in the half plane of the draw (or of its opposite, if that is nearer) *)
Theorem random_unit_cone_spec : forall (resizable : bool) (n d : list R) a theta pre w post,
  resizable = true \/ length n = length d -> d <> [] -> unit_vector d -> 0 < a <= PI / 2 ->
  Forall (fun v => length v = length d) (pre ++ w :: post) -> Forall (fun v => ~ nonzero v) pre -> nonzero w -> (forall s, w <> scaled s d) ->
  exists v O e k, random_unit_cone resizable false n d a theta (pre ++ w :: post) = Ok (Some v) /\
    unit_vector v /\ length v = length d /\ cos a <= sum_prod v d /\
    unit_vector e /\ orthogonal e d /\ 0 < O <= PI / 2 /\ k <> 0 /\ scaled k w = comb (cos O) d (sin O) e /\
    v = comb (cos (opening a O)) d (sin (opening a O)) e.
Proof.
  intros resizable n d a theta pre w post Hn D Ud A L Z W NP. assert (PP := PI_RGT_0). unfold random_unit_cone. cbn [ltb ROps zero mpi RMath div].
  assert (E1 : (Rltb 0 a && negb (Rltb (PI / two) a))%bool = true).
  { unfold Rltb, two. cbn [one add ROps]. destruct (Rlt_dec 0 a); [|lra]. destruct (Rlt_dec (PI / (1 + 1)) a); auto. lra. }
  rewrite E1. cbn [require bind]. assert (E2 : (resizable || Nat.eqb (length n) (length d))%bool = true).
  { destruct Hn as [-> | ->]; auto. rewrite Nat.eqb_refl. destruct resizable; auto. }
  rewrite E2. cbn [require bind]. destruct (random_unit_spec d pre w post D L Z W) as (u & -> & Uu & Lu & s & S0 & Eu). cbn [bind].
  assert (Nu : u <> []) by (intros E; rewrite E in Lu; destruct d; [congruence|discriminate Lu]).
  assert (NPu : forall q k, k <> 0 -> scaled k w <> scaled q d).
  { intros q k K E. apply (NP (q / k)). apply (f_equal (scaled (/ k))) in E. rewrite !scaled_scaled in E. rewrite Rinv_l, scaled_1 in E by auto.
    rewrite E. f_equal. field. auto. }
  assert (Core : forall u' k, k <> 0 -> u' = scaled k w -> unit_vector u' -> 0 <= sum_prod u' d -> length u' = length d ->
    exists v O e k, random_cone_nD u' d a = Ok v /\ unit_vector v /\ length v = length d /\ cos a <= sum_prod v d /\
    unit_vector e /\ orthogonal e d /\ 0 < O <= PI / 2 /\ k <> 0 /\ scaled k w = comb (cos O) d (sin O) e /\
    v = comb (cos (opening a O)) d (sin (opening a O)) e).
  { intros u' k K E U' P' L'. destruct (decompose u' d L' U' Ud) as (O & e & Le & Ue & Oe & HO & Eu'); auto. { intros q. rewrite E. auto. }
    assert (OR := opening_range a O (proj1 A) HO). destruct (comb_unit (opening a O) d e Le Ud Ue Oe) as [Uv Cv].
    exists (comb (cos (opening a O)) d (sin (opening a O)) e), O, e, k. rewrite Eu' at 1. split; [apply cone_run; auto|].
    split; auto. split; [apply comb_length; auto|]. split; [rewrite Cv; apply cos_decr_1; lra|]. repeat (split; auto); try lra. congruence. }
  destruct (Rlt_dec (sum_prod u d) 0) as [G|G].
  - rewrite flip_run by auto. assert (V : vneg u = scaled (-1) u) by (rewrite vneg_map; apply map_ext; intros; cbn; ring).
    destruct (Core (vneg u) (- s)) as (v & O & e & k & E & R); try lra.
    + rewrite V, Eu, scaled_scaled. f_equal. ring.
    + unfold unit_vector in *. rewrite V, sp_scaled, sp_scaled_r, Uu. ring.
    + rewrite V, sp_scaled. lra.
    + rewrite V, scaled_length. auto.
    + exists v, O, e, k. rewrite E. split; auto.
  - destruct (Core u s) as (v & O & e & k & E & R); auto; try lra. exists v, O, e, k. rewrite E. split; auto.
Qed.
(** every direction of the cone other than its axis is the result of some draw *)
Theorem random_unit_cone_reaches : forall (d v : list R) a theta, d <> [] -> unit_vector d -> 0 < a <= PI / 2 ->
  length v = length d -> unit_vector v -> cos a <= sum_prod v d -> (forall s, v <> scaled s d) ->
  exists w, length w = length d /\ random_unit_cone true false d d a theta [w] = Ok (Some v).
Proof.
  intros d v a theta D Ud A L Uv C NP. assert (PP := PI_RGT_0). assert (C0 : 0 <= cos a) by (apply cos_ge_0; lra).
  destruct (decompose v d L Uv Ud NP) as (b & e & Le & Ue & Oe & Hb & Ev); [lra|].
  destruct (comb_unit b d e Le Ud Ue Oe) as [_ Cv]. rewrite <- Ev in Cv. rewrite Cv in C.
  assert (BA : b <= a) by (destruct (Rle_dec b a); auto; exfalso; assert (cos b < cos a) by (apply cos_decreasing_1; lra); lra).
  set (O := b * (PI / 2) / a). assert (HO : 0 < O <= PI / 2).
  { unfold O. split; [apply Rdiv_lt_0_compat; [apply Rmult_lt_0_compat|]; lra|]. apply Rmult_le_reg_r with a; [lra|]. unfold Rdiv at 1. rewrite Rmult_assoc, Rinv_l by lra. nra. }
  assert (OO : opening a O = b) by (unfold opening, O; field; lra). destruct (comb_unit O d e Le Ud Ue Oe) as [Uw Cw].
  exists (comb (cos O) d (sin O) e). split; [apply comb_length; auto|]. unfold random_unit_cone. cbn [ltb ROps zero mpi RMath div].
  assert (E1 : (Rltb 0 a && negb (Rltb (PI / two) a))%bool = true).
  { unfold Rltb, two. cbn [one add ROps]. destruct (Rlt_dec 0 a); [|lra]. destruct (Rlt_dec (PI / (1 + 1)) a); auto. lra. }
  rewrite E1. cbn [require bind orb]. unfold random_unit. rewrite vmin_ok by auto. cbn [bind].
  assert (Nw : comb (cos O) d (sin O) e <> []) by (intros Z; assert (Lw := comb_length (cos O) d (sin O) e Le); rewrite Z in Lw; destruct d; [congruence|discriminate Lw]).
  pose proof (first_draw_skip [] (comb (cos O) d (sin O) e) [] (Forall_nil _) Nw (unit_nonzero _ Uw)) as FD. cbn [app] in FD. rewrite FD. cbn [bind]. rewrite vnormalize_scaled by auto. rewrite (unit_norm _ Uw). rewrite Rinv_1, scaled_1. cbn [bind].
  rewrite cone_run by auto. rewrite OO, <- Ev. reflexivity.
Qed.
(** 2D: the axis turned by the drawn angle *)
Theorem random_unit_cone_2D_spec : forall (n d : list R) a theta draws, length n = 2%nat -> length d = 2%nat -> unit_vector d -> 0 < a <= PI / 2 -> - a <= theta <= a ->
  random_unit_cone false true n d a theta draws = Ok (Some (rotate2 theta d)) /\ unit_vector (rotate2 theta d) /\ sum_prod (rotate2 theta d) d = cos theta /\
  cos a <= cos theta.
Proof.
  intros n d a theta draws Ln L Ud A Ht. assert (PP := PI_RGT_0). destruct (len2 d L) as (x & y & ->). unfold unit_vector in Ud. cbn [sum_prod add mul zero ROps] in Ud.
  assert (P := sin2_cos2 theta). unfold Rsqr in P. set (u := rotate2 theta [x; y]).
  assert (Q : (sin theta * sin theta + cos theta * cos theta) * (x * x + y * y) = 1) by (rewrite P; lra).
  assert (Uu : unit_vector u) by (unfold unit_vector, u, rotate2; cbn [sum_prod nth add mul zero ROps]; lra).
  split; [|split; [auto|split]].
  - unfold random_unit_cone. cbn [ltb ROps zero mpi RMath div].
    assert (E1 : (Rltb 0 a && negb (Rltb (PI / two) a))%bool = true).
    { unfold Rltb, two. cbn [one add ROps]. destruct (Rlt_dec 0 a); [|lra]. destruct (Rlt_dec (PI / (1 + 1)) a); auto. lra. }
    rewrite E1, Ln. cbn [length Nat.eqb orb require bind]. unfold random_cone_2D. cbn [el nth mcos msin RMath mul sub add ROps].
    change [cos theta * x - sin theta * y; sin theta * x + cos theta * y] with u. rewrite vnormalize_scaled by discriminate.
    rewrite unit_norm, Rinv_1, scaled_1 by auto. reflexivity.
  - unfold u, rotate2. cbn [sum_prod nth add mul zero ROps]. transitivity (cos theta * (x * x + y * y)); [ring|]. replace (x * x + y * y) with 1 by lra. ring.
  - destruct (Rle_dec 0 theta); [apply cos_decr_1; lra|]. rewrite <- (cos_neg theta). apply cos_decr_1; lra.
Qed.
Theorem random_unit_cone_errors : forall (resizable fixed2 : bool) (n d : list R) a theta draws,
  (~ 0 < a <= PI / 2 -> random_unit_cone resizable fixed2 n d a theta draws = Throw EInvalidArgument) /\
  (0 < a <= PI / 2 -> resizable = false -> length n <> length d -> random_unit_cone resizable fixed2 n d a theta draws = Throw EIncompatibleVectorSize).
Proof.
  intros resizable fixed2 n d a theta draws. unfold random_unit_cone. cbn [ltb ROps zero mpi RMath div]. unfold Rltb, two. cbn [one add ROps].
  replace (1 + 1) with 2 by ring. split.
  - intros H. destruct (Rlt_dec 0 a); [|reflexivity]. destruct (Rlt_dec (PI / 2) a); [reflexivity|]. exfalso. apply H. lra.
  - intros H -> L. destruct (Rlt_dec 0 a); [|lra]. destruct (Rlt_dec (PI / 2) a); [lra|]. apply Nat.eqb_neq in L. rewrite L. reflexivity.
Qed.
(** The documented "works for any vector dimension" is false: in one dimension every draw is
    parallel to d, sin(O) is 0 and the result is NaN ([None], PropQuatExp.v). *)
#[local] Existing Instance PropQuatExp.NOps.
#[local] Existing Instance PropQuatExp.NMath.
Lemma acos_safe_one : acos_safe (Some 1) = Some 0.
Proof.
  unfold acos_safe, clamp, std_min, std_max. cbn [ltb NOps one neg]. unfold Rltb. destruct (Rlt_dec 1 1); [lra|]. cbn [PropQuatExp.n1 option_map ltb NOps].
  unfold Rltb. destruct (Rlt_dec 1 (- (1))); [lra|]. cbn [macos NMath PropQuatExp.n1 option_map]. rewrite acos_1. reflexivity.
Qed.
Lemma cone_1D n a : n = [Some 1] \/ n = [Some (-1)] -> random_cone_nD n [Some 1] (Some a) = Ok [None].
Proof.
  intros N. unfold random_cone_nD.
  assert (E : exists c, vdot n [Some 1] = Ok (Some c) /\ (if ltb (Some c) zero then (vneg n, neg (Some c)) else (n, Some c)) = ([Some 1], Some 1)).
  { destruct N as [-> | ->].
    - exists (1 * 1). split; [reflexivity|]. cbn [ltb NOps zero]. unfold Rltb. destruct (Rlt_dec (1 * 1) 0); [lra|]. rewrite Rmult_1_r. reflexivity.
    - exists (-1 * 1). split; [reflexivity|]. cbn [ltb NOps zero]. unfold Rltb. destruct (Rlt_dec (-1 * 1) 0); [|lra].
      unfold vneg, elems. cbn [length seq map el nth neg NOps PropQuatExp.n1 option_map]. do 3 f_equal; [f_equal|]; lra. }
  destruct E as (c & -> & E2). cbn [bind]. rewrite E2, acos_safe_one.
  cbn [msin NMath PropQuatExp.n1 option_map]. rewrite sin_0.
  match goal with |- context[vadd ?p ?q] => change (vadd p q) with (Ok [add (mul (Some 1) (msin (sub (Some 0) (Some a)))) (mul (Some 1) (msin (Some a)))]) end.
  cbn [bind]. match goal with |- context[vdiv [?p] (Some 0)] => replace (vdiv [p] (Some 0)) with [@None R] end.
  - unfold vadd, check_vsame, elems, vscale, elems. cbn [length seq map Nat.eqb require bind el nth]. unfold vdiv, elems. cbn [length seq map el nth]. do 2 f_equal.
    match goal with |- div (add ?p (mul None ?q)) _ = _ => replace (mul None q) with (@None R) by reflexivity; destruct p; reflexivity end.
  - unfold vdiv, elems. cbn [length seq map el nth div NOps]. cbn [add mul sub NOps PropQuatExp.n2 msin NMath PropQuatExp.n1 option_map].
    destruct (Req_EM_T 0 0); [reflexivity|lra].
Qed.
Theorem random_unit_cone_1D_refuted : forall x a theta : R, x <> 0 -> 0 < a <= PI / 2 ->
  random_unit_cone true false [Some 1] [Some 1] (Some a) (Some theta) [[Some x]] = Ok (Some [None]).
Proof.
  intros x a theta X A. assert (XX : 0 < x * x) by nra. assert (S0 : 0 < sqrt (x * x)) by (apply sqrt_lt_R0; auto).
  assert (S2 : sqrt (x * x) * sqrt (x * x) = x * x) by (apply sqrt_sqrt; lra).
  unfold random_unit_cone. cbn [ltb NOps zero mpi NMath div]. unfold two. cbn [one add NOps PropQuatExp.n2].
  destruct (Req_EM_T (1 + 1) 0); [lra|]. replace (1 + 1) with 2 by ring. unfold Rltb at 1 2. destruct (Rlt_dec 0 a); [|lra]. destruct (Rlt_dec (PI / 2) a); [lra|].
  cbn [negb andb require bind orb]. unfold random_unit. cbn [check_vmin length Nat.leb require bind first_draw]. unfold vlength_squared, accumulate.
  cbn [check_vmin length Nat.leb require bind Nat.sub seq fold_left el nth mul NOps PropQuatExp.n2 eqb zero]. unfold Reqb. destruct (Req_EM_T (x * x) 0); [lra|]. cbn [bind].
  unfold vnormalize, vlength, vlength_squared, accumulate.
  cbn [check_vmin length Nat.leb require bind Nat.sub seq fold_left el nth mul NOps PropQuatExp.n2 msqrt NMath PropQuatExp.n1 option_map].
  unfold vdiv, elems. cbn [length seq map el nth div NOps PropQuatExp.n2]. destruct (Req_EM_T (sqrt (x * x)) 0); [lra|]. cbn [bind].
  set (u := x / sqrt (x * x)). assert (UU : u * u = 1) by (unfold u; replace (x / sqrt (x * x) * (x / sqrt (x * x))) with (x * x / (sqrt (x * x) * sqrt (x * x))) by (field; lra); rewrite S2; field; lra).
  assert (U1 : u = 1 \/ u = -1) by (assert (Q : (u - 1) * (u + 1) = 0) by lra; apply Rmult_integral in Q; lra).
  rewrite cone_1D; [reflexivity|]. destruct U1 as [-> | ->]; auto.
Qed.
(** random_unit(v, v, a), the axis being the result: v[0] is overwritten before it is read,
    and the result leaves the cone. *)
Theorem random_unit_own_axis_refuted : exists (d v : list R) a theta, length d = 2%nat /\ unit_vector d /\ 0 < a <= PI / 2 /\ - a <= theta <= a /\
  random_cone_2D_own d theta = Ok v /\ sum_prod v d < cos a.
Proof.
  assert (PP := PI_RGT_0). exists [0; 1], (scaled (/ norm [-1; -1]) [-1; -1]), (PI / 2), (PI / 2). repeat split; try lra.
  - unfold unit_vector. cbn. ring.
  - unfold random_cone_2D_own. cbn [vset el nth firstn skipn app mcos msin RMath mul sub add ROps]. rewrite cos_PI2, sin_PI2.
    replace (vset (vset [0; 1] 0 (0 * 0 - 1 * 1)) 1 (1 * el (vset [0; 1] 0 (0 * 0 - 1 * 1)) 0 + 0 * el (vset [0; 1] 0 (0 * 0 - 1 * 1)) 1)) with [-1; -1].
    + rewrite vnormalize_scaled by discriminate. reflexivity.
    + unfold vset, el. cbn. repeat f_equal; ring.
  - rewrite cos_PI2, sp_scaled. assert (N : 0 < / norm [-1; -1]).
    { apply Rinv_0_lt_compat, norm_pos. exists (-1). split; [left; auto|lra]. }
    cbn [sum_prod add mul zero ROps]. nra.
Qed.
(** With v as its own axis and any dimension but a compile-time 2: the axis is overwritten by
    the first draw, which is then parallel to itself, and every element comes out as NaN. *)
Lemma vdot_some (u v : list R) : vdot (map Some u) (map Some v) = match @vdot R ROps u v with Ok x => Ok (Some x) | Throw e => Throw e | UB => UB end.
Proof.
  unfold vdot, check_vmin, check_vsame. rewrite !map_length.
  destruct (Nat.leb 1 (length u)) eqn:E1; [|reflexivity]. destruct (Nat.leb 1 (length v)) eqn:E2; [|reflexivity].
  destruct (Nat.eqb (length u) (length v)) eqn:E3; [|reflexivity]. cbn [require bind]. f_equal. unfold accumulate.
  apply Nat.leb_le in E1. apply Nat.eqb_eq in E3.
  assert (G : forall i, (i < length u)%nat -> mul (el (map Some u) i) (el (map Some v) i) = Some (el u i * el v i)).
  { intros i Hi. unfold el. rewrite (nth_indep (map Some u) zero (Some 0)), (nth_indep (map Some v) zero (Some 0)) by (rewrite map_length; lia).
    rewrite !map_nth. reflexivity. }
  rewrite (G 0%nat) by lia. change (@mul R ROps) with Rmult. change (@add R ROps) with Rplus.
  assert (L : forall l x, (forall i, In i l -> (i < length u)%nat) ->
    fold_left (fun a i => add a (mul (el (map Some u) i) (el (map Some v) i))) l (Some x) = Some (fold_left (fun a i => a + el u i * el v i) l x)).
  { induction l as [|i l IH]; intros x H; [reflexivity|]. cbn [fold_left]. rewrite G by (apply H; left; auto).
    cbn [add NOps PropQuatExp.n2]. apply IH. intros j Hj. apply H. right. auto. }
  apply L. intros i Hi. apply in_seq in Hi. lia.
Qed.
Lemma elems_const {A : Type} (n : nat) (x : A) : map (fun _ => x) (seq 0 n) = repeat x n.
Proof. generalize 0%nat. induction n as [|n IH]; intros k; cbn; [reflexivity|]. f_equal. apply IH. Qed.
Theorem random_unit_own_axis_nD_refuted : forall (u : list R) a, unit_vector u ->
  random_cone_nD (map Some u) (map Some u) (Some a) = Ok (repeat None (length u)).
Proof.
  intros u a U. assert (Ne : u <> []) by (intros ->; unfold unit_vector in U; cbn in U; lra).
  unfold random_cone_nD. rewrite vdot_some, R_dot_sum by auto. rewrite U. cbn [bind].
  cbn [ltb NOps zero]. unfold Rltb. destruct (Rlt_dec 1 0) as [Hn|_]; [lra|]. rewrite acos_safe_one.
  set (n := map Some u). assert (Ln : length n = length u) by apply map_length.
  assert (V : forall s t, vadd (vscale s n) (vscale t n) = Ok (elems (length n) (fun i => add (mul (el n i) s) (mul (el n i) t)))).
  { intros s t. unfold vadd, check_vsame, vscale, elems. rewrite !map_length, seq_length, Nat.eqb_refl. cbn [require bind]. f_equal.
    apply map_ext_in. intros i Hi. apply in_seq in Hi. unfold el at 1 3.
    rewrite !(nth_indep _ zero (mul (el n 0) s)) by (rewrite map_length, seq_length; lia).
    f_equal; [rewrite (map_nth (fun i => mul (el n i) s)), seq_nth by lia; reflexivity|].
    rewrite (nth_indep _ (mul (el n 0) s) (mul (el n 0) t)) by (rewrite map_length, seq_length; lia).
    rewrite (map_nth (fun i => mul (el n i) t)), seq_nth by lia. reflexivity. }
  rewrite V. cbn [bind].
  assert (D : forall l, vdiv l (msin (Some 0)) = repeat None (length l)).
  { intros l. unfold vdiv, elems. rewrite <- elems_const. apply map_ext. intros i. cbn [msin NMath PropQuatExp.n1 option_map]. rewrite sin_0.
    cbn [div NOps]. destruct (el l i); [|reflexivity]. cbn [PropQuatExp.n2]. destruct (Req_EM_T 0 0); [reflexivity|lra]. }
  rewrite D. unfold elems at 1. rewrite map_length, seq_length.
  unfold vadd, check_vsame, vscale, elems. rewrite !map_length, !seq_length, repeat_length, Nat.eqb_refl. cbn [require bind]. f_equal.
  unfold vdiv, elems. rewrite map_length, seq_length, Ln, <- elems_const. apply map_ext_in. intros i Hi. apply in_seq in Hi.
  match goal with |- div (el ?l i) ?d = None => assert (X : el l i = None) end; [|rewrite X; reflexivity].
  unfold el at 1. match goal with |- nth i (map ?f (seq 0 ?k)) _ = _ =>
    rewrite (nth_indep _ zero (f 0%nat)) by (rewrite map_length, seq_length; lia); rewrite (map_nth f), seq_nth by lia end.
  cbn [Nat.add]. match goal with |- add ?p (el (map ?f (seq 0 ?k)) i) = None => assert (Y : el (map f (seq 0 k)) i = None) end; [|rewrite Y; match goal with |- add ?p None = None => destruct p; reflexivity end].
  unfold el at 1. match goal with |- nth i (map ?f (seq 0 ?k)) _ = _ =>
    rewrite (nth_indep _ zero (f 0%nat)) by (rewrite map_length, seq_length; lia); rewrite (map_nth f), seq_nth by lia end.
  cbn [Nat.add]. assert (Z : el (repeat (@None R) (length n)) i = None).
  { unfold el. rewrite (nth_indep _ zero None) by (rewrite repeat_length; lia). apply nth_repeat. }
  rewrite elems_const, <- Ln, Z. reflexivity.
Qed.
Example random_case : unit_vector [0; 1; 0] /\ nonzero [0; 2; 3] /\ ~ nonzero [0; 0; 0] /\ (forall s, [0; 2; 3] <> scaled s [0; 1; 0]) /\ 0 < 1 <= PI / 2 /\
  comb (cos 0) [1; 0] (sin 0) [0; 1] = [1; 0].
Proof.
  assert (P := PI2_1). assert (PP := PI_RGT_0). repeat split; try lra.
  - unfold unit_vector. cbn. ring.
  - exists 2. split; [cbn; auto|lra].
  - intros (x & [<-|[<-|[<-|[]]]] & X); lra.
  - intros s E. injection E as _ _ E. cbn in E. lra.
  - rewrite cos_0, sin_0. unfold comb. cbn. repeat f_equal; ring.
Qed.
Print Assumptions random_unit_spec. Print Assumptions random_unit_cone_spec. Print Assumptions random_unit_cone_reaches. Print Assumptions random_unit_cone_2D_spec.
Print Assumptions random_unit_cone_1D_refuted. Print Assumptions random_unit_own_axis_refuted. Print Assumptions random_unit_own_axis_nD_refuted.
