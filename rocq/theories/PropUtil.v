(** C57: field-of-view and zoom conversions.  C58: what operator<< writes.
    C59: generator functions and basis vectors of matrices of any size. *)
From Coq Require Import Ascii String List Bool Arith Lia ZArith Reals Lra.
From Verif Require Import Base BaseFacts ZInst RInst MiscModel QuatModel QuatSpec RotModel XfModel XfSpec XfProofs GeoModel UtilModel PropQuat PropXf PropProj.
Import ListNotations.

#[export] Instance RAtan : AtanOps R := {| matan := atan |}.

(** ** C57 *)
Section Fov.
Open Scope R_scope.
Lemma atan_pos x : 0 < x -> 0 < atan x < PI / 2.
Proof. intros H. pose proof (atan_bound x). pose proof (atan_increasing 0 x H). rewrite atan_0 in *. lra. Qed.
Lemma tan_pos x : 0 < x < PI -> 0 < tan (x / 2).
Proof. intros. apply tan_gt_0; lra. Qed.
Lemma back x : 0 < x < PI -> 2 * atan (tan (x / 2)) = x.
Proof. intros H. rewrite atan_tan by lra. lra. Qed.
Lemma rtwo : (two : R) = 2. Proof. unfold two. cbn [add one ROps]. lra. Qed.
Lemma xy x a : xfov_to_yfov x a = 2 * atan (tan (x / 2) / a).
Proof. unfold xfov_to_yfov. rewrite rtwo. reflexivity. Qed.
Lemma yx x a : yfov_to_xfov x a = 2 * atan (tan (x / 2) * a).
Proof. unfold yfov_to_xfov. rewrite rtwo. reflexivity. Qed.
Lemma zf z : zoom_to_fov z = 2 * atan (1 / z).
Proof. unfold zoom_to_fov. rewrite rtwo. reflexivity. Qed.
Lemma fz x : fov_to_zoom x = 1 / tan (x / 2).
Proof. unfold fov_to_zoom. rewrite rtwo. reflexivity. Qed.
Lemma half2 t : tan (2 * atan t / 2) = t.
Proof. replace (2 * atan t / 2) with (atan t) by lra. apply tan_atan. Qed.

(** An image [w] wide and [h] high at distance [d] from the eye is seen under the
    horizontal angle [fov] when half of it spans half of the angle. *)
Definition spans (fov size d : R) : Prop := 0 < fov < PI /\ size / 2 = d * tan (fov / 2).

Theorem fov_conversions : forall aspect fov, 0 < aspect -> 0 < fov < PI ->
  0 < xfov_to_yfov fov aspect < PI /\ 0 < yfov_to_xfov fov aspect < PI /\
  yfov_to_xfov (xfov_to_yfov fov aspect) aspect = fov /\ xfov_to_yfov (yfov_to_xfov fov aspect) aspect = fov /\
  (forall w h d, w = aspect * h -> (spans fov w d -> spans (xfov_to_yfov fov aspect) h d) /\ (spans fov h d -> spans (yfov_to_xfov fov aspect) w d)).
Proof.
  intros a f A F. pose proof (tan_pos f F) as P.
  assert (Q : 0 < tan (f / 2) / a) by (apply Rdiv_lt_0_compat; auto). assert (Q' : 0 < tan (f / 2) * a) by (apply Rmult_lt_0_compat; auto).
  pose proof (atan_pos _ Q). pose proof (atan_pos _ Q'). rewrite !yx, !xy, !half2.
  replace (tan (f / 2) / a * a) with (tan (f / 2)) by (field; lra). replace (tan (f / 2) * a / a) with (tan (f / 2)) by (field; lra).
  rewrite !back by auto. repeat split; try lra.
  - rewrite half2. destruct H2 as [_ E]. rewrite H1 in E. apply Rmult_eq_reg_l with a; [|lra].
    replace (a * (h / 2)) with (a * h / 2) by field. rewrite E. field. lra.
  - rewrite half2. destruct H2 as [_ E]. rewrite H1. replace (a * h / 2) with (a * (h / 2)) by field. rewrite E. ring.
Qed.
Theorem zoom_conversions : forall zoom fov aspect, 0 < zoom -> 0 < fov < PI -> 0 < aspect ->
  0 < zoom_to_fov zoom < PI /\ 0 < fov_to_zoom fov /\
  fov_to_zoom (zoom_to_fov zoom) = zoom /\ zoom_to_fov (fov_to_zoom fov) = fov /\
  yzoom_to_xzoom (xzoom_to_yzoom zoom aspect) aspect = zoom /\ xzoom_to_yzoom (yzoom_to_xzoom zoom aspect) aspect = zoom /\
  xzoom_to_yzoom (fov_to_zoom fov) aspect = fov_to_zoom (xfov_to_yfov fov aspect) /\
  yzoom_to_xzoom (fov_to_zoom fov) aspect = fov_to_zoom (yfov_to_xfov fov aspect).
Proof.
  intros z f a Z F A. pose proof (tan_pos f F) as P.
  assert (Q : 0 < 1 / z) by (apply Rdiv_lt_0_compat; lra). assert (Q' : 0 < 1 / tan (f / 2)) by (apply Rdiv_lt_0_compat; lra).
  pose proof (atan_pos _ Q). rewrite !fz, !zf, !yx, !xy, !half2. unfold xzoom_to_yzoom, yzoom_to_xzoom. cbn [mul div ROps].
  replace (1 / (1 / tan (f / 2))) with (tan (f / 2)) by (field; lra). rewrite back by auto.
  split; [lra|]. split; [lra|]. split; [field; lra|]. split; [auto|]. split; [field; lra|]. split; [field; lra|]. split; field; lra.
Qed.
(** A wider view is a smaller zoom. *)
Theorem fov_zoom_decreasing : forall f1 f2, 0 < f1 -> f1 < f2 -> f2 < PI -> fov_to_zoom f2 < fov_to_zoom f1.
Proof.
  intros f1 f2 A B C. rewrite !fz. pose proof (tan_pos f1 ltac:(lra)). pose proof (tan_pos f2 ltac:(lra)).
  assert (tan (f1 / 2) < tan (f2 / 2)) by (apply tan_increasing; lra).
  unfold Rdiv. rewrite !Rmult_1_l. apply Rinv_lt_contravar; auto. apply Rmult_lt_0_compat; auto.
Qed.
(** The two perspective builders are the same projection through the conversions. *)
Theorem perspective_builders_agree : forall (m : mx R) fov aspect n f h z, 0 < fov < PI -> 0 < aspect ->
  matrix_perspective_yfov m (xfov_to_yfov fov aspect) aspect n f h z = matrix_perspective_xfov m fov aspect n f h z /\
  matrix_perspective_xfov m (yfov_to_xfov fov aspect) aspect n f h z = matrix_perspective_yfov m fov aspect n f h z.
Proof.
  intros m x a n f h z F A. unfold matrix_perspective_xfov, matrix_perspective_yfov. rewrite rtwo. cbn [mul div mtan ROps RMath].
  rewrite xy, yx, !half2. split; f_equal; field; lra.
Qed.
(** Outside (0, pi) the round trip loses whole turns. *)
Theorem fov_wide_angle : forall aspect fov, 0 < aspect -> PI < fov < 2 * PI ->
  yfov_to_xfov (xfov_to_yfov fov aspect) aspect = fov - 2 * PI.
Proof.
  intros a f A F. rewrite yx, xy, half2. replace (tan (f / 2) / a * a) with (tan (f / 2)) by (field; lra).
  assert (E : tan (f / 2) = tan (f / 2 - PI)).
  { unfold tan. rewrite sin_minus, cos_minus, sin_PI, cos_PI. assert (C : cos (f / 2) <> 0) by (apply Rlt_not_eq, cos_lt_0; lra). field. repeat split; try lra. }
  rewrite E, atan_tan by lra. lra.
Qed.
Theorem fov_round_trip_refuted : exists aspect fov, 0 < aspect /\ 0 < fov /\ yfov_to_xfov (xfov_to_yfov fov aspect) aspect <> fov.
Proof. exists 1, (3 * PI / 2). pose proof PI_RGT_0. split; [lra|]. split; [lra|]. rewrite fov_wide_angle by lra. lra. Qed.
Example fov_case : xfov_to_yfov (PI / 2) 1 = PI / 2 /\ fov_to_zoom (PI / 2) = 1 /\ spans (PI / 2) 2 1.
Proof.
  pose proof PI_RGT_0. rewrite xy, fz. unfold spans. replace (PI / 2 / 2) with (PI / 4) by lra. rewrite tan_PI4.
  replace (1 / 1) with 1 by lra. rewrite atan_1. lra.
Qed.
End Fov.

(** ** C58 *)
Open Scope nat_scope.
(** The texts, each preceded by [sep] but the first. *)
Fixpoint joined (sep : ascii) (l : list text) : text :=
  match l with [] => [] | [x] => x | x :: r => x ++ sep :: joined sep r end.
Definition row_text {T} (show : T -> text) (xs : list T) : text :=
  lit "[" ++ concat (map (fun x => " "%char :: show x) xs) ++ lit " ]".
Definition row_list {T} (m : mx T) (i : nat) : list T := map (fun j => mel m i j) (seq 0 (mcols m)).
Definition matrix_text {T} (show : T -> text) (m : mx T) : text :=
  joined newline (map (fun i => row_text show (row_list m i)) (seq 0 (mrows m))).

Lemma joined_cons sep x y l : joined sep (x :: y :: l) = x ++ sep :: joined sep (y :: l).
Proof. reflexivity. Qed.
Lemma joined_snoc sep l x y : joined sep ((l ++ [x]) ++ [y]) = joined sep (l ++ [x]) ++ sep :: y.
Proof.
  induction l as [|a l IH]; [reflexivity|]. destruct l as [|b l].
  - cbn. rewrite <- !app_assoc. reflexivity.
  - cbn [app] in *. rewrite !joined_cons, IH. rewrite <- !app_assoc. reflexivity.
Qed.
Lemma firstn_snoc {A} (v : list A) i x : nth_error v i = Some x -> firstn (S i) v = firstn i v ++ [x].
Proof. revert i. induction v; intros [|i] H; cbn in *; try discriminate; [injection H as ->; auto|]. f_equal. auto. Qed.

Theorem vector_output : forall (T : Type) (show : T -> text) os v,
  (v <> [] -> print_vector show os v = Ok (os ++ joined " "%char (map show v))) /\
  (v = [] -> print_vector show os v = UB).
Proof.
  intros T show os v. split; [|intros ->; reflexivity]. intros N. destruct v as [|x v]; [congruence|]. unfold print_vector. cbn [v_at nth_error bind].
  set (w := x :: v).
  destruct (loop_inv (fun i s => s = os ++ joined " "%char (map show (firstn i w)))
              (fun i os => x <- v_at w i ;; Ok (os ++ lit " " ++ show x)) 1 (List.length w) (os ++ show x)) as (s & E & I).
  - unfold w. cbn. lia.
  - unfold w. cbn [firstn map joined]. auto.
  - intros i s L1 ->. unfold v_at. destruct (nth_error w i) as [y|] eqn:Ny; [|apply nth_error_None in Ny; lia]. cbn [bind]. eexists; split; eauto.
    rewrite (firstn_snoc _ _ _ Ny). destruct i as [|i]; [lia|]. destruct (nth_error w i) as [z|] eqn:Nz; [|apply nth_error_None in Nz; lia].
    rewrite (firstn_snoc _ _ _ Nz), !map_app. cbn [map]. rewrite joined_snoc, <- !app_assoc. reflexivity.
  - rewrite E, I, firstn_all. reflexivity.
Qed.
Lemma seq_S' n : seq 0 (S n) = seq 0 n ++ [n].
Proof. rewrite seq_S. reflexivity. Qed.
Theorem matrix_output : forall (T : Type) (show : T -> text) os m, print_matrix show os m = Ok (os ++ matrix_text show m).
Proof.
  intros T show os m. unfold print_matrix, matrix_text.
  set (rt := fun i => row_text show (row_list m i)).
  set (pre := fun i => match i with 0 => [] | S _ => if Nat.eqb i (mrows m) then joined newline (map rt (seq 0 i)) else joined newline (map rt (seq 0 i)) ++ [newline] end).
  match goal with |- loop 0 (mrows m) ?f os = _ => destruct (loop_inv (fun i s => s = os ++ pre i) f 0 (mrows m) os) as (s & E & I) end.
  - lia.
  - cbn. rewrite app_nil_r. auto.
  - intros i s L ->.
    match goal with |- context [bind (loop 0 (mcols m) ?g ?s0) _] =>
      destruct (loop_inv (fun j s => s = s0 ++ concat (map (fun x => " "%char :: show x) (map (fun j => mel m i j) (seq 0 j)))) g 0 (mcols m) s0) as (s' & E' & I') end.
    + lia.
    + cbn. rewrite app_nil_r. auto.
    + intros j s Lj ->. eexists; split; [reflexivity|]. rewrite seq_S', !map_app, concat_app. cbn [map concat]. rewrite app_nil_r, <- !app_assoc. reflexivity.
    + rewrite E'. cbn [bind]. eexists; split; [reflexivity|]. subst s'.
      assert (J : joined newline (map rt (seq 0 (S i))) = (match i with 0 => [] | S _ => joined newline (map rt (seq 0 i)) ++ [newline] end) ++ rt i).
      { rewrite seq_S'. destruct i as [|i]; [reflexivity|]. rewrite seq_S', !map_app. cbn [map]. rewrite joined_snoc, <- app_assoc. reflexivity. }
      assert (P : pre i = match i with 0 => [] | S _ => joined newline (map rt (seq 0 i)) ++ [newline] end).
      { unfold pre. destruct i; auto. replace (Nat.eqb (S i) (mrows m)) with false; auto. symmetry. apply Nat.eqb_neq. lia. }
      assert (PS : pre (S i) = if Nat.eqb (S i) (mrows m) then pre i ++ rt i else (pre i ++ rt i) ++ [newline]) by (rewrite P, <- J; reflexivity).
      rewrite PS.
      assert (B : Nat.eqb i (mrows m - 1) = Nat.eqb (S i) (mrows m)) by (destruct (Nat.eqb_spec i (mrows m - 1)), (Nat.eqb_spec (S i) (mrows m)); auto; lia).
      rewrite B. unfold rt, row_text. fold (row_list m i). destruct (Nat.eqb (S i) (mrows m)); rewrite <- !app_assoc; reflexivity.
  - rewrite E, I. f_equal. f_equal. unfold pre. destruct (mrows m) as [|r]; auto. rewrite Nat.eqb_refl. reflexivity.
Qed.

(** What can be read back from the text. *)
Lemma cut sep (a b r s : text) : ~ In sep a -> ~ In sep b -> a ++ sep :: r = b ++ sep :: s -> a = b /\ r = s.
Proof.
  revert b. induction a as [|x a IH]; intros [|y b] A B E; cbn in *.
  - injection E as ->; auto.
  - injection E as -> _. destruct B; auto.
  - injection E as -> _. destruct A; auto.
  - injection E as -> E. destruct (IH b) as [-> ->]; auto.
Qed.
Lemma joined_inj sep l1 : forall l2, l1 <> [] -> l2 <> [] -> (forall x, In x l1 -> ~ In sep x) -> (forall x, In x l2 -> ~ In sep x) ->
  joined sep l1 = joined sep l2 -> l1 = l2.
Proof.
  induction l1 as [|x [|x' l1] IH]; intros [|y [|y' l2]] N1 N2 F1 F2 E; try congruence; auto.
  - cbn in E. subst. auto.
  - rewrite joined_cons in E. cbn [joined] in E. subst x. destruct (F1 _ (or_introl eq_refl)). apply in_or_app. right. left. auto.
  - rewrite joined_cons in E. cbn [joined] in E. subst y. destruct (F2 _ (or_introl eq_refl)). apply in_or_app. right. left. auto.
  - rewrite !joined_cons in E. apply cut in E; [|apply F1; left; auto|apply F2; left; auto]. destruct E as [-> E]. f_equal.
    apply IH; auto; try discriminate; intros z Hz; [apply F1|apply F2]; right; auto.
Qed.
Definition one_word (t : text) : Prop := ~ In " "%char t /\ ~ In newline t.

(** Two vectors print the same text exactly when they have as many elements and equal
    elements print the same. *)
Theorem vector_output_determines : forall (T : Type) (show : T -> text) os u v, (forall x, one_word (show x)) -> u <> [] -> v <> [] ->
  (print_vector show os u = print_vector show os v <-> map show u = map show v).
Proof.
  intros T show os u v W U V. destruct (vector_output T show os u) as [Pu _], (vector_output T show os v) as [Pv _]. rewrite Pu, Pv by auto. split.
  - intros E. injection E as E. apply app_inv_head in E. apply joined_inj in E; auto.
    + destruct u; cbn; congruence.
    + destruct v; cbn; congruence.
    + intros x Hx. apply in_map_iff in Hx. destruct Hx as (y & <- & _). apply W.
    + intros x Hx. apply in_map_iff in Hx. destruct Hx as (y & <- & _). apply W.
  - intros ->. auto.
Qed.
Lemma words_inj (l1 : list text) : forall l2, (forall x, In x l1 -> ~ In " "%char x) -> (forall x, In x l2 -> ~ In " "%char x) ->
  concat (map (cons " "%char) l1) = concat (map (cons " "%char) l2) -> l1 = l2.
Proof.
  induction l1 as [|x l1 IH]; intros [|y l2] F1 F2 E; cbn in E; try discriminate; auto.
  injection E as E.
  assert (G : x = y /\ concat (map (cons " "%char) l1) = concat (map (cons " "%char) l2)).
  { pose proof (F1 x (or_introl eq_refl)) as X. pose proof (F2 y (or_introl eq_refl)) as Y.
    destruct l1 as [|x' l1], l2 as [|y' l2]; cbn [map concat app] in *; rewrite ?app_nil_r in *.
    - auto.
    - subst x. destruct X. apply in_or_app. right. left. auto.
    - subst y. destruct Y. apply in_or_app. right. left. auto.
    - apply cut in E; auto. destruct E as [-> E]. rewrite E. auto. }
  destruct G as [-> G]. f_equal. apply IH; auto; intros z Hz; [apply F1|apply F2]; right; auto.
Qed.
Lemma row_text_words {T} (show : T -> text) xs : row_text show xs = "["%char :: concat (map (cons " "%char) (map show xs ++ [lit "]"])).
Proof. unfold row_text. cbn [lit list_ascii_of_string app]. rewrite map_app, concat_app, map_map. cbn [map concat]. rewrite app_nil_r. reflexivity. Qed.
Lemma row_text_inj {T} (show : T -> text) xs ys : (forall x, one_word (show x)) -> row_text show xs = row_text show ys -> map show xs = map show ys.
Proof.
  intros W E. rewrite !row_text_words in E. injection E as E. apply words_inj in E.
  - apply app_inj_tail in E. apply E.
  - intros z Hz. apply in_app_or in Hz. destruct Hz as [Hz|[<-|[]]].
    + apply in_map_iff in Hz. destruct Hz as (y & <- & _). apply W.
    + cbn. intros [X|[]]. discriminate.
  - intros z Hz. apply in_app_or in Hz. destruct Hz as [Hz|[<-|[]]].
    + apply in_map_iff in Hz. destruct Hz as (y & <- & _). apply W.
    + cbn. intros [X|[]]. discriminate.
Qed.
Lemma row_text_line {T} (show : T -> text) xs : (forall x, one_word (show x)) -> ~ In newline (row_text show xs).
Proof.
  intros W H. rewrite row_text_words in H. destruct H as [H|H]; [discriminate|]. apply in_concat in H. destruct H as (t & H1 & H2).
  apply in_map_iff in H1. destruct H1 as (w & <- & H1). destruct H2 as [H2|H2]; [discriminate|].
  apply in_app_or in H1. destruct H1 as [H1|[<-|[]]].
  - apply in_map_iff in H1. destruct H1 as (y & <- & _). eapply W; eauto.
  - cbn in H2. destruct H2 as [H2|[]]. discriminate.
Qed.
(** Two matrices print the same text exactly when both have no rows, or the sizes are
    equal and corresponding elements print the same. *)
Theorem matrix_output_determines : forall (T : Type) (show : T -> text) os (a b : mx T), (forall x, one_word (show x)) ->
  (print_matrix show os a = print_matrix show os b <->
   mrows a = mrows b /\ (mrows a = 0 \/ mcols a = mcols b /\ forall i j, i < mrows a -> j < mcols a -> show (mel a i j) = show (mel b i j))).
Proof.
  intros T show os a b W. rewrite !matrix_output. unfold matrix_text.
  assert (L : forall m : mx T, List.length (map (fun i => row_text show (row_list m i)) (seq 0 (mrows m))) = mrows m) by (intros m; rewrite map_length, seq_length; auto).
  assert (NE : forall m : mx T, mrows m <> 0 -> map (fun i => row_text show (row_list m i)) (seq 0 (mrows m)) <> []).
  { intros m H E. apply H. rewrite <- (L m), E. reflexivity. }
  assert (NL : forall m : mx T, forall x, In x (map (fun i => row_text show (row_list m i)) (seq 0 (mrows m))) -> ~ In newline x).
  { intros m x Hx. apply in_map_iff in Hx. destruct Hx as (i & <- & _). apply row_text_line. auto. }
  assert (Z0 : forall m : mx T, mrows m <> 0 -> joined newline (map (fun i => row_text show (row_list m i)) (seq 0 (mrows m))) <> []).
  { intros m H. destruct (mrows m) as [|r]; [congruence|]. cbn [seq map]. rewrite row_text_words. destruct (map _ (seq 1 r)); cbn; discriminate. }
  split.
  - intros E. injection E as E. apply app_inv_head in E.
    destruct (Nat.eq_dec (mrows a) 0) as [Ra|Ra].
    { destruct (Nat.eq_dec (mrows b) 0) as [Rb|Rb]; [lia|]. exfalso. apply (Z0 b Rb). rewrite <- E, Ra. reflexivity. }
    destruct (Nat.eq_dec (mrows b) 0) as [Rb|Rb].
    { exfalso. apply (Z0 a Ra). rewrite E, Rb. reflexivity. }
    apply joined_inj in E; [|apply NE; auto|apply NE; auto|apply NL|apply NL]. assert (R : mrows a = mrows b) by (rewrite <- (L a), E; auto). split; auto. right.
    assert (Rows : forall i, i < mrows a -> map show (row_list a i) = map show (row_list b i)).
    { intros i Hi. apply (row_text_inj show); auto.
      pose proof (f_equal (fun l => nth_error l i) E) as N. cbv beta in N.
      rewrite (map_nth_error _ i _ (d := i)) in N by (rewrite (nth_error_nth' _ 0) by (rewrite seq_length; lia); rewrite seq_nth by lia; auto).
      rewrite (map_nth_error _ i _ (d := i)) in N by (rewrite (nth_error_nth' _ 0) by (rewrite seq_length; lia); rewrite seq_nth by lia; auto).
      congruence. }
    assert (C : mcols a = mcols b).
    { pose proof (f_equal (@List.length _) (Rows 0 ltac:(lia))) as N. unfold row_list in N. rewrite !map_length, !seq_length in N. auto. }
    split; auto. intros i j Hi Hj. pose proof (f_equal (fun l => nth_error l j) (Rows i Hi)) as N. unfold row_list in N. rewrite !map_map in N.
    rewrite (map_nth_error _ j _ (d := j)) in N by (rewrite (nth_error_nth' _ 0) by (rewrite seq_length; lia); rewrite seq_nth by lia; auto).
    rewrite (map_nth_error _ j _ (d := j)) in N by (rewrite (nth_error_nth' _ 0) by (rewrite seq_length; lia); rewrite seq_nth by lia; auto).
    congruence.
  - intros [R [Z|[C H]]].
    + rewrite <- R, Z. reflexivity.
    + rewrite <- R. f_equal. f_equal. f_equal. apply map_ext_in. intros i Hi. apply in_seq in Hi. rewrite !row_text_words. f_equal. f_equal. f_equal. f_equal.
      unfold row_list. rewrite <- C, !map_map. apply map_ext_in. intros j Hj. apply in_seq in Hj. apply H; lia.
Qed.
(** Quaternions print the real part first, then x, y, z, whatever the storage order. *)
Definition quaternion_with {T} (o : order) (w x y z : T) : quat T :=
  match o with real_first => Quat w x y z | imaginary_first => Quat x y z w end.
Theorem quaternion_output : forall (T : Type) (show : T -> text) os o w x y z,
  print_quaternion show os o (quaternion_with o w x y z) = os ++ lit "[ " ++ concat (map (fun e => " "%char :: show e) [w; x; y; z]) ++ lit " ]".
Proof. intros. unfold print_quaternion. destruct o; cbn [quaternion_with qget oW oX oY oZ q0 q1 q2 q3 map concat]; rewrite app_nil_r, <- !app_assoc; reflexivity. Qed.
Theorem quaternion_output_determines : forall (T : Type) (show : T -> text) os o o' p q, (forall x, one_word (show x)) ->
  (print_quaternion show os o p = print_quaternion show os o' q <->
   show (qget p (oW o)) = show (qget q (oW o')) /\ show (qget p (oX o)) = show (qget q (oX o')) /\
   show (qget p (oY o)) = show (qget q (oY o')) /\ show (qget p (oZ o)) = show (qget q (oZ o'))).
Proof.
  intros T show os o o' p q W. unfold print_quaternion. split.
  - intros E. apply app_inv_head in E. cbn [lit list_ascii_of_string app] in E. injection E as E.
    repeat (apply cut in E; [|apply W|apply W]; destruct E as [? E]). auto.
  - intros (-> & -> & -> & ->). auto.
Qed.
Theorem empty_vector_output_refuted : exists (v : list Z), forall show os, print_vector show os v = UB.
Proof. exists []. reflexivity. Qed.
Definition digit (x : Z) : text := [ascii_of_nat (48 + Z.to_nat x)].
Example print_case :
  print_vector digit [] [1; 2; 3]%Z = Ok (lit "1 2 3") /\
  print_matrix digit (lit "m=") (Mx 2 2 row_basis (fun i j => Z.of_nat (2 * i + j))) = Ok (lit "m=[ 0 1 ]" ++ newline :: lit "[ 2 3 ]") /\
  print_quaternion digit [] imaginary_first (Quat 1 2 3 4)%Z = lit "[  4 1 2 3 ]".
Proof. repeat split. Qed.
Example one_word_case : forall x, (0 <= x < 10)%Z -> one_word (digit x).
Proof. intros x H. assert (C : (x = 0 \/ x = 1 \/ x = 2 \/ x = 3 \/ x = 4 \/ x = 5 \/ x = 6 \/ x = 7 \/ x = 8 \/ x = 9)%Z) by lia.
  destruct C as [->|[->|[->|[->|[->|[->|[->|[->|[->| ->]]]]]]]]]; split; cbn; intros [X|[]]; discriminate. Qed.

(** ** C59 *)
Lemma v_zero_ok {T} {Op : Ops T} (v : list T) : v_zero v = Ok (repeat zero (List.length v)).
Proof.
  unfold v_zero.
  match goal with |- loop 0 ?n ?f v = _ => destruct (loop_inv (fun i s => List.length s = n /\ forall k, k < i -> nth_error s k = Some zero) f 0 n v) as (s & E & L & I) end.
  - lia.
  - split; auto. lia.
  - intros i s Hi [L I]. destruct (list_put_Some s i zero ltac:(lia)) as (s' & E). rewrite E. eexists; split; [reflexivity|]. split.
    + rewrite (list_put_length _ _ _ _ E). auto.
    + intros k Hk. rewrite (nth_error_list_put _ _ _ _ k E). destruct (Nat.eq_dec k i); auto. apply I. lia.
  - rewrite E. f_equal. apply list_ext. intros k. destruct (Nat.lt_ge_cases k (List.length v)) as [Hk|Hk].
    + rewrite I by auto. symmetry. rewrite (nth_error_nth' _ zero) by (rewrite repeat_length; auto). rewrite nth_repeat. auto.
    + rewrite !(proj2 (nth_error_None _ _)); auto; rewrite ?repeat_length; lia.
Qed.
(** zero<N>() and axis<N>(i) for every N and i: the result does not depend on what the memory held. *)
Theorem vector_generators : forall (T : Type) (Op : Ops T) (garbage : list T) (i : Z), let n := List.length garbage in
  zero_nD garbage = Ok (repeat zero n) /\
  ((0 <= i < Z.of_nat n)%Z -> axis_nD garbage i = Ok (axis_vector n (Z.to_nat i))) /\
  (~ (0 <= i < Z.of_nat n)%Z -> axis_nD garbage i = UB).
Proof.
  intros T Op g i n. unfold zero_nD, axis_nD, v_cardinal. rewrite v_zero_ok. cbn [bind]. fold n. split; [auto|]. split; intros H.
  - destruct (Z.ltb_spec i 0); [lia|]. destruct (list_put_Some (repeat (zero : T) n) (Z.to_nat i) one) as (s & E); [rewrite repeat_length; lia|]. rewrite E. f_equal.
    apply list_ext. intros k. rewrite (nth_error_list_put _ _ _ _ k E). unfold axis_vector.
    destruct (Nat.lt_ge_cases k n) as [Hk|Hk].
    + rewrite (map_nth_error _ k _ (d := k)) by (rewrite (nth_error_nth' _ 0) by (rewrite seq_length; lia); rewrite seq_nth by lia; auto).
      destruct (Nat.eq_dec k (Z.to_nat i)) as [->|Ne]; [rewrite Nat.eqb_refl; auto|]. apply Nat.eqb_neq in Ne. rewrite Ne. rewrite (nth_error_nth' _ zero) by (rewrite repeat_length; auto). rewrite nth_repeat. auto.
    + destruct (Nat.eq_dec k (Z.to_nat i)); [lia|]. rewrite !(proj2 (nth_error_None _ _)); auto; rewrite ?repeat_length, ?map_length, ?seq_length; lia.
  - destruct (Z.ltb_spec i 0); auto. destruct (list_put (repeat zero n) (Z.to_nat i) one) eqn:E; auto. apply list_put_bound in E. rewrite repeat_length in E. lia.
Qed.
Theorem matrix_generators : forall (T : Type) (Op : Ops T) (g : mx T) i j,
  mel (zero_mx g) i j = zero /\ mel (identity_mx g) i j = (if Nat.eqb i j then one else zero) /\
  same_shape g (zero_mx g) /\ same_shape g (identity_mx g).
Proof. intros. repeat split. Qed.
(** The i-th basis vector of a matrix of any size is the i-th cardinal axis multiplied
    by the matrix: on the left for a row basis, on the right for a column basis. *)
Theorem basis_vector_nD_is_product : forall (T : Type) (Op : Ops T) (m : mx T) (i : nat), is_ring T ->
  (mbasis m = row_basis -> i < mrows m ->
     matrix_get_basis_vector_nD m i = map (fun j => sum (mrows m) (fun k => mul (nth k (axis_vector (mrows m) i) zero) (mel m k j))) (seq 0 (mcols m))) /\
  (mbasis m = col_basis -> i < mcols m ->
     matrix_get_basis_vector_nD m i = map (fun j => sum (mcols m) (fun k => mul (mel m j k) (nth k (axis_vector (mcols m) i) zero))) (seq 0 (mrows m))).
Proof.
  intros T Op m i RT. unfold matrix_get_basis_vector_nD, VecModel.elems, be. split; intros -> Hi; apply map_ext_in; intros j Hj.
  - rewrite (sum_ext _ _ (fun k => mul (kron i k) (mel m k j))); [rewrite (sum_kron RT) by auto; auto|].
    intros k Hk. unfold axis_vector. rewrite nth_map_seq by auto. unfold kron. rewrite Nat.eqb_sym. auto.
  - rewrite (sum_ext _ _ (fun k => mul (kron i k) (mel m j k))); [rewrite (sum_kron RT) by auto; auto|].
    intros k Hk. unfold axis_vector. rewrite nth_map_seq by auto. unfold kron. rewrite Nat.eqb_sym. apply (Rmul_comm RT).
Qed.
Example generators_case : axis_nD [7; 8; 9]%Z 1 = Ok [0; 1; 0]%Z /\ axis_nD [7; 8]%Z 2 = UB /\
  matrix_get_basis_vector_nD (Mx 2 3 col_basis (fun i j => Z.of_nat (10 * i + j))) 2 = [2; 12]%Z.
Proof. repeat split. Qed.

Print Assumptions fov_conversions.
Print Assumptions zoom_conversions.
Print Assumptions fov_zoom_decreasing.
Print Assumptions perspective_builders_agree.
Print Assumptions fov_wide_angle.
Print Assumptions fov_round_trip_refuted.
Print Assumptions vector_output.
Print Assumptions matrix_output.
Print Assumptions vector_output_determines.
Print Assumptions matrix_output_determines.
Print Assumptions quaternion_output.
Print Assumptions quaternion_output_determines.
Print Assumptions empty_vector_output_refuted.
Print Assumptions vector_generators.
Print Assumptions matrix_generators.
Print Assumptions basis_vector_nD_is_product.
