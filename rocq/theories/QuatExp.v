(** Quaternion exponential and logarithm over the reals. *)
From Coq Require Import Reals Lra Psatz List.
From Coq.Reals Require Import Ratan.
From Verif Require Import Base RInst QuatModel QuatSpec QuatProofs.
Open Scope R_scope.

Definition vlen (h : ham R) : R := sqrt (hx h * hx h + hy h * hy h + hz h * hz h).
Lemma vsq_nonneg (h : ham R) : 0 <= hx h * hx h + hy h * hy h + hz h * hz h.
Proof. nra. Qed.
Lemma exp_parts o q : exists r, q_exp o q = Ok r /\
  let h := parts o q in let k := exp (hw h) * (sin (vlen h) / vlen h) in
  parts o r = Ham (exp (hw h) * cos (vlen h)) (hx h * k) (hy h * k) (hz h * k).
Proof. destruct o; eexists; (split; [reflexivity|]); reflexivity. Qed.
Lemma log_parts o q : exists r, q_log o q = Ok r /\
  let h := parts o q in let k := acos (hw h / sqrt (hnorm h)) / vlen h in
  parts o r = Ham (ln (sqrt (hnorm h))) (hx h * k) (hy h * k) (hz h * k).
Proof.
  destruct o; eexists; (split; [reflexivity|]); unfold parts, parts_of, vlen, hnorm, length_of, norm_of; simpl.
  - reflexivity.
  - set (N := q0 q * q0 q + q1 q * q1 q + q2 q * q2 q + q3 q * q3 q).
    replace (q3 q * q3 q + q0 q * q0 q + q1 q * q1 q + q2 q * q2 q) with N by (unfold N; ring).
    reflexivity.
Qed.
Lemma vlen_scale w a b c k : vlen (Ham w (a * k) (b * k) (c * k)) = vlen (Ham 0 a b c) * Rabs k.
Proof.
  unfold vlen; simpl. rewrite <- sqrt_Rsqr_abs, <- sqrt_mult.
  - f_equal. unfold Rsqr. ring.
  - nra.
  - apply Rle_0_sqr.
Qed.
Lemma vlen_w w w' a b c : vlen (Ham w a b c) = vlen (Ham w' a b c). Proof. reflexivity. Qed.
Lemma vlen_sq h : vlen h * vlen h = hx h * hx h + hy h * hy h + hz h * hz h.
Proof. apply sqrt_sqrt, vsq_nonneg. Qed.

Lemma exp_log_l o q : vlen (parts o q) <> 0 ->
  exists r s, q_log o q = Ok r /\ q_exp o r = Ok s /\ s = q.
Proof.
  intros Hv. destruct (log_parts o q) as (r & Er & Pr). destruct (exp_parts o r) as (s & Es & Ps).
  exists r, s. do 2 (split; auto). apply (parts_inj o). cbv zeta in *. rewrite Ps, Pr. clear Ps Pr Es Er r s.
  destruct (parts o q) as [w a b c]. cbn [hw hx hy hz].
  set (h := Ham w a b c) in *.
  assert (V0 : 0 < vlen h).
  { assert (0 <= vlen h) by apply sqrt_pos. destruct H; auto. congruence. }
  assert (VV := vlen_sq h). simpl in VV.
  set (L := sqrt (hnorm h)).
  assert (LL : L * L = w * w + vlen h * vlen h).
  { unfold L. rewrite sqrt_sqrt; unfold hnorm; simpl; [rewrite VV; ring|nra]. }
  assert (L0 : 0 < L). { apply sqrt_lt_R0. unfold hnorm; simpl. nra. }
  assert (B : -1 < w / L < 1).
  { assert (X : w / L * L = w) by (field; lra). split; apply (Rmult_lt_reg_r L); auto; rewrite X.
    - assert (Q : (w + L) * (w - L) < 0) by nra. nra.
    - assert (Q : (w + L) * (w - L) < 0) by nra. nra. }
  destruct (acos_bound_lt (w / L) B) as [A0 A1].
  set (th := acos (w / L)) in *.
  set (k := th / vlen h).
  assert (Vk : forall w', vlen (Ham w' (a * k) (b * k) (c * k)) = th).
  { intros w'. rewrite vlen_scale. rewrite (vlen_w 0 w). fold h. unfold k. rewrite Rabs_pos_eq.
    - field. lra.
    - apply Rlt_le, Rdiv_lt_0_compat; auto. }
  rewrite !Vk. rewrite exp_ln by auto.
  assert (C : cos th = w / L) by (apply cos_acos; lra).
  assert (S : sin th = vlen h / L).
  { unfold th. rewrite sin_acos by lra. replace (1 - (w / L)²) with ((vlen h / L)²).
    - apply sqrt_Rsqr. apply Rlt_le, Rdiv_lt_0_compat; auto.
    - unfold Rsqr. replace (vlen h / L * (vlen h / L)) with ((vlen h * vlen h) / (L * L)) by (field; lra).
      replace (vlen h * vlen h) with (L * L - w * w) by lra. field. lra. }
  rewrite C, S. unfold k. clear Vk. clearbody th. unfold k in *; clear k.
  set (V := vlen h) in *. clearbody V L. unfold h. apply ham_eq; simpl; field; lra.
Qed.
Lemma log_exp_l o q : 0 < vlen (parts o q) < PI ->
  exists r s, q_exp o q = Ok r /\ q_log o r = Ok s /\ s = q.
Proof.
  intros Hv. destruct (exp_parts o q) as (r & Er & Pr). destruct (log_parts o r) as (s & Es & Ps).
  exists r, s. do 2 (split; auto). apply (parts_inj o). cbv zeta in *. rewrite Ps, Pr. clear Ps Pr Es Er r s.
  destruct (parts o q) as [w a b c]. cbn [hw hx hy hz].
  set (h := Ham w a b c) in *.
  assert (S0 : 0 < sin (vlen h)) by (apply sin_gt_0; tauto).
  assert (VV := vlen_sq h). simpl in VV.
  assert (X0 := exp_pos w).
  set (k := exp w * (sin (vlen h) / vlen h)).
  assert (K0 : 0 < k). { unfold k. apply Rmult_lt_0_compat; auto. apply Rdiv_lt_0_compat; tauto. }
  assert (Vk : forall w', vlen (Ham w' (a * k) (b * k) (c * k)) = exp w * sin (vlen h)).
  { intros w'. rewrite vlen_scale, (vlen_w 0 w). fold h. rewrite Rabs_pos_eq by lra. unfold k. field. lra. }
  assert (N : sqrt (hnorm (Ham (exp w * cos (vlen h)) (a * k) (b * k) (c * k))) = exp w).
  { replace (hnorm _) with (exp w * exp w); [apply sqrt_square; lra|].
    unfold hnorm; simpl.
    replace (exp w * cos (vlen h) * (exp w * cos (vlen h)) + a * k * (a * k) + b * k * (b * k) + c * k * (c * k))
      with (exp w * exp w * (cos (vlen h) * cos (vlen h)) + (a * a + b * b + c * c) * (k * k)) by ring.
    rewrite <- VV. unfold k.
    replace (vlen h * vlen h * (exp w * (sin (vlen h) / vlen h) * (exp w * (sin (vlen h) / vlen h))))
      with (exp w * exp w * (sin (vlen h) * sin (vlen h))) by (field; lra).
    assert (SC := sin2_cos2 (vlen h)). unfold Rsqr in SC. nra. }
  rewrite N, !Vk, ln_exp.
  replace (exp w * cos (vlen h) / exp w) with (cos (vlen h)) by (field; lra).
  rewrite acos_cos by lra. unfold k. clear Vk N K0. clear k.
  set (V := vlen h) in *. clearbody V. unfold h. apply ham_eq; simpl; auto; field; lra.
Qed.
Lemma exp_pure_l o q w th x y z : parts o q = Ham w (th * x) (th * y) (th * z) ->
  x * x + y * y + z * z = 1 -> th <> 0 ->
  exists r, q_exp o q = Ok r /\
    parts o r = Ham (exp w * cos th) (exp w * sin th * x) (exp w * sin th * y) (exp w * sin th * z).
Proof.
  intros E U H. destruct (exp_parts o q) as (r & Er & Pr). exists r. split; auto. rewrite Pr, E. clear Pr Er r E.
  simpl. assert (V : vlen (Ham w (th * x) (th * y) (th * z)) = Rabs th).
  { unfold vlen; simpl. rewrite <- sqrt_Rsqr_abs. f_equal. unfold Rsqr.
    replace (th * x * (th * x) + th * y * (th * y) + th * z * (th * z)) with (th * th * (x * x + y * y + z * z)) by ring.
    rewrite U. ring. }
  rewrite V. assert (Q : forall t, t <> 0 -> cos (Rabs t) = cos t /\ sin (Rabs t) / Rabs t = sin t / t).
  { intros t Ht. unfold Rabs. destruct (Rcase_abs t); auto. rewrite cos_neg, sin_neg. split; auto. field; auto. }
  destruct (Q th H) as [-> ->]. apply ham_eq; simpl; auto; field; auto.
Qed.
