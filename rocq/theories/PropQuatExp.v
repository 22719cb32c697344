(** C47: exponential and logarithm of quaternions. *)
From Coq Require Import Reals Lra List.
From Verif Require Import Base RInst QuatModel QuatSpec QuatProofs QuatExp.
Open Scope R_scope.

(** exp (w + th u) = e^w (cos th + u sin th), u a unit imaginary *)
Theorem exp_polar : forall o q w th x y z,
  parts o q = Ham w (th * x) (th * y) (th * z) -> x * x + y * y + z * z = 1 -> th <> 0 ->
  exists r, q_exp o q = Ok r /\
    parts o r = Ham (exp w * cos th) (exp w * sin th * x) (exp w * sin th * y) (exp w * sin th * z).
Proof. exact exp_pure_l. Qed.
(** exp inverts log on every quaternion with a non-zero imaginary part *)
Theorem exp_of_log : forall o q, (hx (parts o q) <> 0 \/ hy (parts o q) <> 0 \/ hz (parts o q) <> 0) ->
  exists r, q_log o q = Ok r /\ q_exp o r = Ok q.
Proof.
  intros o q H. destruct (exp_log_l o q) as (r & s & A & B & ->); [|eauto].
  intros E. unfold vlen in E. apply sqrt_eq_0 in E; [|apply vsq_nonneg].
  destruct H as [H|[H|H]]; apply H; clear H; nra.
Qed.
(** log inverts exp where the angle is below pi *)
Theorem log_of_exp : forall o q,
  0 < sqrt (hx (parts o q) * hx (parts o q) + hy (parts o q) * hy (parts o q) + hz (parts o q) * hz (parts o q)) < PI ->
  exists r, q_exp o q = Ok r /\ q_log o r = Ok q.
Proof. intros o q H. destruct (log_exp_l o q H) as (r & s & A & B & ->). eauto. Qed.
Example exp_log_ex : exists q, parts imaginary_first q = Ham 2 1 0 0 /\ hx (parts imaginary_first q) <> 0 /\
  0 < sqrt (1 * 1 + 0 * 0 + 0 * 0) < PI.
Proof.
  exists (Quat 1 0 0 2). split; [reflexivity|]. split; [simpl; lra|].
  replace (1 * 1 + 0 * 0 + 0 * 0) with 1 by ring. rewrite sqrt_1. assert (Q := PI2_1). lra.
Qed.

(** Reals extended with NaN: 0/0 and everything computed from it is [None]. *)
Definition n2 (f : R -> R -> option R) (a b : option R) : option R :=
  match a, b with Some x, Some y => f x y | _, _ => None end.
Definition n1 (f : R -> R) : option R -> option R := option_map f.
#[local] Instance NOps : Ops (option R) := {|
  zero := Some 0; one := Some 1; add := n2 (fun x y => Some (x + y)); sub := n2 (fun x y => Some (x - y));
  mul := n2 (fun x y => Some (x * y)); div := n2 (fun x y => if Req_EM_T y 0 then None else Some (x / y));
  neg := n1 Ropp; ltb := fun a b => match a, b with Some x, Some y => Rltb x y | _, _ => false end;
  eqb := fun a b => match a, b with Some x, Some y => Reqb x y | _, _ => false end |}.
#[local] Instance NMath : MathOps (option R) := {|
  mfabs := n1 Rabs; mfmod := n2 (fun x y => Some (Rfmod x y)); msqrt := n1 sqrt; mcos := n1 cos; msin := n1 sin;
  mtan := n1 tan; macos := n1 acos; masin := n1 asin; matan2 := n2 (fun x y => Some (Ratan2 x y));
  mlog := n1 ln; mexp := n1 exp; mpi := Some PI |}.
(** Real quaternions are not handled: exp and log of w + 0i + 0j + 0k have NaN
    imaginary parts (exp 0 should be 1). *)
Theorem exp_log_of_real_refuted : forall o w, exists q : quat (option R), exists r s,
  parts o q = Ham (Some w) (Some 0) (Some 0) (Some 0) /\
  q_exp o q = Ok r /\ parts o r = Ham (Some (exp w)) None None None /\
  (0 < w -> q_log o q = Ok s /\ parts o s = Ham (Some (ln w)) None None None).
Proof.
  intros o w.
  assert (S0 : sqrt (0 * 0 + 0 * 0 + 0 * 0) = 0) by (replace (0 * 0 + 0 * 0 + 0 * 0) with 0 by ring; apply sqrt_0).
  assert (SW : 0 < w -> sqrt (w * w + 0 * 0 + 0 * 0 + 0 * 0) = w).
  { intros Hw. replace (w * w + 0 * 0 + 0 * 0 + 0 * 0) with (w * w) by ring. apply sqrt_square. lra. }
  assert (SW' : 0 < w -> sqrt (0 * 0 + 0 * 0 + 0 * 0 + w * w) = w).
  { intros Hw. replace (0 * 0 + 0 * 0 + 0 * 0 + w * w) with (w * w) by ring. apply sqrt_square. lra. }
  destruct o; [exists (Quat (Some w) (Some 0) (Some 0) (Some 0))|exists (Quat (Some 0) (Some 0) (Some 0) (Some w))];
    eexists; eexists; (split; [reflexivity|]); (split; [reflexivity|]); split;
    try (unfold parts, parts_of; simpl; rewrite S0; destruct (Req_EM_T 0 0); [|congruence]; rewrite cos_0, Rmult_1_r; reflexivity);
    intros Hw; (split; [reflexivity|]); unfold parts, parts_of; simpl; rewrite ?S0, ?SW, ?SW' by auto;
    (destruct (Req_EM_T w 0); [lra|]); simpl; (destruct (Req_EM_T 0 0); [|congruence]); reflexivity.
Qed.

Print Assumptions exp_polar. Print Assumptions exp_of_log. Print Assumptions log_of_exp. Print Assumptions exp_log_of_real_refuted.
