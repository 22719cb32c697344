(** Determinant, inverse, LU decomposition and LU solve: cml/matrix/detail/
    {determinant.tpp,inverse.h,lu.tpp}, cml/matrix/{lu.tpp,inverse.h,determinant.tpp},
    readable_matrix.tpp:79-85, writable_matrix.tpp:227-234.

    The element grid of a matrix is a function of (row, column), updated in place
    by the loops of the code; sizes and basis as in RotModel.v.  [fabs] and [eps]
    are value_traits::fabs and value_traits::epsilon() of the element type.
    All element accesses of these functions are inside an N x N matrix. *)
From Coq Require Import List Bool Arith.
From Verif Require Import Base RotModel.
Import ListNotations.
Open Scope nat_scope.

(** for(int i = lo; i < hi; ++i) and for(int i = hi - 1; i >= lo; --i) over a state *)
Definition for_upto {S : Type} (lo hi : nat) (f : nat -> S -> S) (s : S) : S :=
  fold_left (fun s i => f i s) (seq lo (hi - lo)) s.
Definition for_downto {S : Type} (lo hi : nat) (f : nat -> S -> S) (s : S) : S :=
  fold_left (fun s i => f i s) (rev (seq lo (hi - lo))) s.

Section LU.
Context {T : Type} {Op : Ops T}.
Variables (fabs : T -> T) (eps : T).
Local Infix "+!" := add (at level 50, left associativity).
Local Infix "-!" := sub (at level 50, left associativity).
Local Infix "*!" := mul (at level 40, left associativity).
Local Infix "/!" := div (at level 40, left associativity).
Local Notation "-: x" := (neg x) (at level 35).

Definition grid : Type := nat -> nat -> T.
(** M(i,j) = x *)
Definition upd (M : grid) (i j : nat) (x : T) : grid :=
  fun a b => if Nat.eqb a i && Nat.eqb b j then x else M a b.
(** v[i] = x *)
Definition put {A : Type} (v : nat -> A) (i : nat) (x : A) : nat -> A :=
  fun a => if Nat.eqb a i then x else v a.
(** for(int i = 0; i < N; ++i) std::swap(M(r,i), M(s,i)) *)
Definition swap_rows (N r s : nat) (M : grid) : grid :=
  for_upto 0 N (fun i M => let a := M r i in let b := M s i in upd (upd M r i b) s i a) M.
(** for(int j = 0; j < N; ++j) std::swap(M(j,r), M(j,s)) *)
Definition swap_cols (N r s : nat) (M : grid) : grid :=
  for_upto 0 N (fun j M => let a := M j r in let b := M j s in upd (upd M j r b) j s a) M.
(** value_type sum(0); for(int p = lo; p < hi; ++p) sum += f(p) * g(p) *)
Definition sum_prod (lo hi : nat) (f g : nat -> T) : T :=
  for_upto lo hi (fun p s => s +! f p *! g p) zero.

(** detail/lu.tpp:13-35 *)
Definition lu_inplace (N : nat) (M : grid) : grid :=
  for_upto 0 N (fun k M =>
    let M := for_upto k N (fun j M =>
      upd M k j (M k j -! sum_prod 0 k (fun p => M k p) (fun p => M p j))) M in
    for_upto (k + 1) N (fun i M =>
      upd M i k ((M i k -! sum_prod 0 k (fun p => M i p) (fun p => M p k)) /! M k k)) M) M.

(** detail/lu.tpp:51-60: the pivot row (and its magnitude) of column k *)
Definition find_pivot (N k : nat) (M : grid) : T * nat :=
  for_upto (k + 1) N (fun i '(max, row) =>
    let mag := fabs (M i k) in if ltb max mag then (mag, i) else (max, row)) (M k k, k).
(** detail/lu.tpp:73-77 *)
Definition schur (N k : nat) (M : grid) : grid :=
  for_upto (k + 1) N (fun i M =>
    let M := upd M i k (M i k /! M k k) in
    for_upto (k + 1) N (fun j M => upd M i j (M i j -! M i k *! M k j)) M) M.
(** detail/lu.tpp:37-82: matrix, order, return value.  [stop] is set by the early
    return 0.  flag is 1 or -1: [odd] = flag is -1. *)
Record lu_state : Type := LUS { ls_m : grid; ls_order : nat -> nat; ls_odd : bool; ls_stop : bool }.
Definition lu_pivot_step (N k : nat) (s : lu_state) : lu_state :=
  if ls_stop s then s else
  let M := ls_m s in
  let '(max, row) := find_pivot N k M in
  if ltb max eps then LUS M (ls_order s) (ls_odd s) true else
  let swapped := negb (Nat.eqb row k) in
  let order := if swapped then put (put (ls_order s) k (ls_order s row)) row (ls_order s k) else ls_order s in
  let M := if swapped then swap_rows N k row M else M in
  let odd := if swapped then negb (ls_odd s) else ls_odd s in
  LUS (schur N k M) order odd false.
Inductive sign : Type := sgn_pos | sgn_neg | sgn_zero.   (* 1, -1, 0 *)
Definition lu_pivot_inplace (N : nat) (M : grid) : grid * (nat -> nat) * sign :=
  let order := for_upto 0 N (fun i v => put v i i) (fun _ => 0) in
  let s := for_upto 0 (N - 1) (lu_pivot_step N) (LUS M order false false) in
  (ls_m s, ls_order s, if ls_stop s then sgn_zero else if ls_odd s then sgn_neg else sgn_pos).

(** detail/determinant.tpp:18-24; rows() >= 1 (element (0,0) is read) *)
Definition diagonal_product (N : nat) (M : grid) : T :=
  for_upto 1 N (fun i D => D *! M i i) (M 0 0).
Definition times_sign (s : sign) (x : T) : T :=
  match s with sgn_pos => one *! x | sgn_neg => (-: one) *! x | sgn_zero => zero *! x end.

(** detail/determinant.tpp:29-35 *)
Definition det2 (M : grid) : T := M 0 0 *! M 1 1 -! M 1 0 *! M 0 1.
(** detail/determinant.tpp:38-46 *)
Definition det3 (M : grid) : T :=
  M 0 0 *! (M 1 1 *! M 2 2 -! M 1 2 *! M 2 1)
  +! M 0 1 *! (M 1 2 *! M 2 0 -! M 1 0 *! M 2 2)
  +! M 0 2 *! (M 1 0 *! M 2 1 -! M 1 1 *! M 2 0).
(** detail/determinant.tpp:49-78 *)
Definition det4 (M : grid) : T :=
  let m_22_33_23_32 := M 2 2 *! M 3 3 -! M 2 3 *! M 3 2 in
  let m_23_30_20_33 := M 2 3 *! M 3 0 -! M 2 0 *! M 3 3 in
  let m_20_31_21_30 := M 2 0 *! M 3 1 -! M 2 1 *! M 3 0 in
  let m_21_32_22_31 := M 2 1 *! M 3 2 -! M 2 2 *! M 3 1 in
  let m_23_31_21_33 := M 2 3 *! M 3 1 -! M 2 1 *! M 3 3 in
  let m_20_32_22_30 := M 2 0 *! M 3 2 -! M 2 2 *! M 3 0 in
  let d00 := M 0 0 *! (M 1 1 *! m_22_33_23_32 +! M 1 2 *! m_23_31_21_33 +! M 1 3 *! m_21_32_22_31) in
  let d01 := M 0 1 *! (M 1 0 *! m_22_33_23_32 +! M 1 2 *! m_23_30_20_33 +! M 1 3 *! m_20_32_22_30) in
  let d02 := M 0 2 *! (M 1 0 *! (-: m_23_31_21_33) +! M 1 1 *! m_23_30_20_33 +! M 1 3 *! m_20_31_21_30) in
  let d03 := M 0 3 *! (M 1 0 *! m_21_32_22_31 +! M 1 1 *! (-: m_20_32_22_30) +! M 1 2 *! m_20_31_21_30) in
  d00 -! d01 +! d02 -! d03.
(** detail/determinant.tpp:87-98, 121-127 *)
Definition detN (N : nat) (M : grid) : T :=
  let '(A, _, s) := lu_pivot_inplace N M in times_sign s (diagonal_product N A).
(** readable_matrix.tpp:79-85 with the dispatch of detail/determinant.tpp:29-127:
    sizes 2, 3, 4 (fixed or found at run time) use the closed formulas, all others
    the pivoted LU; a 0x0 matrix has no element (0,0). *)
Definition determinant (m : mx T) : out T :=
  require (Nat.eqb (mrows m) (mcols m)) ENonSquareMatrix ;;;
  match mrows m with
  | 0 => UB
  | 2 => Ok (det2 (mel m))
  | 3 => Ok (det3 (mel m))
  | 4 => Ok (det4 (mel m))
  | N => Ok (detN N (mel m))
  end.

(** detail/inverse.h:14-29 *)
Definition inv2 (M : grid) : grid :=
  let M00 := M 0 0 in let M01 := M 0 1 in
  let M10 := M 1 0 in let M11 := M 1 1 in
  let D := M00 *! M11 -! M01 *! M10 in
  let M := upd M 0 0 (M11 /! D) in
  let M := upd M 0 1 ((-: M01) /! D) in
  let M := upd M 1 0 ((-: M10) /! D) in
  upd M 1 1 (M00 /! D).
(** detail/inverse.h:32-62 *)
Definition inv3 (M : grid) : grid :=
  let m_00 := M 1 1 *! M 2 2 -! M 1 2 *! M 2 1 in
  let m_01 := M 1 2 *! M 2 0 -! M 1 0 *! M 2 2 in
  let m_02 := M 1 0 *! M 2 1 -! M 1 1 *! M 2 0 in
  let m_10 := M 0 2 *! M 2 1 -! M 0 1 *! M 2 2 in
  let m_11 := M 0 0 *! M 2 2 -! M 0 2 *! M 2 0 in
  let m_12 := M 0 1 *! M 2 0 -! M 0 0 *! M 2 1 in
  let m_20 := M 0 1 *! M 1 2 -! M 0 2 *! M 1 1 in
  let m_21 := M 0 2 *! M 1 0 -! M 0 0 *! M 1 2 in
  let m_22 := M 0 0 *! M 1 1 -! M 0 1 *! M 1 0 in
  let D := M 0 0 *! m_00 +! M 0 1 *! m_01 +! M 0 2 *! m_02 in
  let M := upd M 0 0 (m_00 /! D) in
  let M := upd M 0 1 (m_10 /! D) in
  let M := upd M 0 2 (m_20 /! D) in
  let M := upd M 1 0 (m_01 /! D) in
  let M := upd M 1 1 (m_11 /! D) in
  let M := upd M 1 2 (m_21 /! D) in
  let M := upd M 2 0 (m_02 /! D) in
  let M := upd M 2 1 (m_12 /! D) in
  upd M 2 2 (m_22 /! D).
(** detail/inverse.h:65-147 *)
Definition inv4 (M : grid) : grid :=
  let m_22_33_23_32 := M 2 2 *! M 3 3 -! M 2 3 *! M 3 2 in
  let m_23_30_20_33 := M 2 3 *! M 3 0 -! M 2 0 *! M 3 3 in
  let m_20_31_21_30 := M 2 0 *! M 3 1 -! M 2 1 *! M 3 0 in
  let m_21_32_22_31 := M 2 1 *! M 3 2 -! M 2 2 *! M 3 1 in
  let m_23_31_21_33 := M 2 3 *! M 3 1 -! M 2 1 *! M 3 3 in
  let m_20_32_22_30 := M 2 0 *! M 3 2 -! M 2 2 *! M 3 0 in
  let d00 := M 1 1 *! m_22_33_23_32 +! M 1 2 *! m_23_31_21_33 +! M 1 3 *! m_21_32_22_31 in
  let d01 := M 1 0 *! m_22_33_23_32 +! M 1 2 *! m_23_30_20_33 +! M 1 3 *! m_20_32_22_30 in
  let d02 := M 1 0 *! (-: m_23_31_21_33) +! M 1 1 *! m_23_30_20_33 +! M 1 3 *! m_20_31_21_30 in
  let d03 := M 1 0 *! m_21_32_22_31 +! M 1 1 *! (-: m_20_32_22_30) +! M 1 2 *! m_20_31_21_30 in
  let d10 := M 0 1 *! m_22_33_23_32 +! M 0 2 *! m_23_31_21_33 +! M 0 3 *! m_21_32_22_31 in
  let d11 := M 0 0 *! m_22_33_23_32 +! M 0 2 *! m_23_30_20_33 +! M 0 3 *! m_20_32_22_30 in
  let d12 := M 0 0 *! (-: m_23_31_21_33) +! M 0 1 *! m_23_30_20_33 +! M 0 3 *! m_20_31_21_30 in
  let d13 := M 0 0 *! m_21_32_22_31 +! M 0 1 *! (-: m_20_32_22_30) +! M 0 2 *! m_20_31_21_30 in
  let m_02_13_03_12 := M 0 2 *! M 1 3 -! M 0 3 *! M 1 2 in
  let m_03_10_00_13 := M 0 3 *! M 1 0 -! M 0 0 *! M 1 3 in
  let m_00_11_01_10 := M 0 0 *! M 1 1 -! M 0 1 *! M 1 0 in
  let m_01_12_02_11 := M 0 1 *! M 1 2 -! M 0 2 *! M 1 1 in
  let m_03_11_01_13 := M 0 3 *! M 1 1 -! M 0 1 *! M 1 3 in
  let m_00_12_02_10 := M 0 0 *! M 1 2 -! M 0 2 *! M 1 0 in
  let d20 := M 3 1 *! m_02_13_03_12 +! M 3 2 *! m_03_11_01_13 +! M 3 3 *! m_01_12_02_11 in
  let d21 := M 3 0 *! m_02_13_03_12 +! M 3 2 *! m_03_10_00_13 +! M 3 3 *! m_00_12_02_10 in
  let d22 := M 3 0 *! (-: m_03_11_01_13) +! M 3 1 *! m_03_10_00_13 +! M 3 3 *! m_00_11_01_10 in
  let d23 := M 3 0 *! m_01_12_02_11 +! M 3 1 *! (-: m_00_12_02_10) +! M 3 2 *! m_00_11_01_10 in
  let d30 := M 2 1 *! m_02_13_03_12 +! M 2 2 *! m_03_11_01_13 +! M 2 3 *! m_01_12_02_11 in
  let d31 := M 2 0 *! m_02_13_03_12 +! M 2 2 *! m_03_10_00_13 +! M 2 3 *! m_00_12_02_10 in
  let d32 := M 2 0 *! (-: m_03_11_01_13) +! M 2 1 *! m_03_10_00_13 +! M 2 3 *! m_00_11_01_10 in
  let d33 := M 2 0 *! m_01_12_02_11 +! M 2 1 *! (-: m_00_12_02_10) +! M 2 2 *! m_00_11_01_10 in
  let D := M 0 0 *! d00 -! M 0 1 *! d01 +! M 0 2 *! d02 -! M 0 3 *! d03 in
  let M := upd M 0 0 (d00 /! D) in
  let M := upd M 0 1 ((-: d10) /! D) in
  let M := upd M 0 2 (d20 /! D) in
  let M := upd M 0 3 ((-: d30) /! D) in
  let M := upd M 1 0 ((-: d01) /! D) in
  let M := upd M 1 1 (d11 /! D) in
  let M := upd M 1 2 ((-: d21) /! D) in
  let M := upd M 1 3 (d31 /! D) in
  let M := upd M 2 0 (d02 /! D) in
  let M := upd M 2 1 ((-: d12) /! D) in
  let M := upd M 2 2 (d22 /! D) in
  let M := upd M 2 3 ((-: d32) /! D) in
  let M := upd M 3 0 ((-: d03) /! D) in
  let M := upd M 3 1 (d13 /! D) in
  let M := upd M 3 2 ((-: d23) /! D) in
  upd M 3 3 (d33 /! D).

(** detail/inverse.h:165-182: pivot search; the candidate starts at (0,0) *)
Definition find_full_pivot (N : nat) (M : grid) (pivoted : nat -> bool) : T * nat * nat :=
  for_upto 0 N (fun j s =>
    if pivoted j then s else
    for_upto 0 N (fun k '(pivot, row, col) =>
      if pivoted k then (pivot, row, col) else
      let mag := fabs (M j k) in
      if ltb pivot mag then (mag, j, k) else (pivot, row, col)) s) (fabs (M 0 0), 0, 0).
(** detail/inverse.h:195-209: process the pivot row, then the other rows *)
Definition eliminate (N col : nat) (M : grid) : grid :=
  let pivot := M col col in
  let M := upd M col col one in
  let s := one /! pivot in
  let M := for_upto 0 N (fun j M => upd M col j (M col j *! s)) M in
  for_upto 0 N (fun j M =>
    if Nat.eqb j col then M else
    let mult := -: M j col in
    let M := upd M j col zero in
    for_upto 0 N (fun k M => upd M j k (M j k +! mult *! M col k)) M) M.
(** detail/inverse.h:155-219 *)
Record inv_state : Type := IS { is_m : grid; is_rows : nat -> nat; is_cols : nat -> nat; is_piv : nat -> bool }.
Definition inverse_step (N i : nat) (s : inv_state) : inv_state :=
  let '(_, row, col) := find_full_pivot N (is_m s) (is_piv s) in
  let M := if Nat.eqb row col then is_m s else swap_rows N row col (is_m s) in
  IS (eliminate N col M) (put (is_rows s) i row) (put (is_cols s) i col) (put (is_piv s) col true).
Definition inverse_loop (N : nat) (M : grid) : inv_state :=
  for_upto 0 N (inverse_step N) (IS M (fun _ => 0) (fun _ => 0) (fun _ => false)).
Definition inverse_pivot (N : nat) (M : grid) : grid :=
  let s := inverse_loop N M in
  for_upto 0 N (fun i M =>
    if Nat.eqb (is_rows s i) (is_cols s i) then M
    else swap_cols N (is_rows s i) (is_cols s i) M) (is_m s).
(** writable_matrix.tpp:227-234 with the dispatch of detail/inverse.h:229-278 *)
Definition matrix_inverse (m : mx T) : out (mx T) :=
  require (Nat.eqb (mrows m) (mcols m)) ENonSquareMatrix ;;;
  let M := mel m in
  Ok (Mx (mrows m) (mcols m) (mbasis m)
    match mrows m with
    | 2 => inv2 M
    | 3 => inv3 M
    | 4 => inv4 M
    | N => inverse_pivot N M
    end).

(** lu.tpp:34-42 *)
Definition lu (m : mx T) : out (mx T) :=
  require (Nat.eqb (mrows m) (mcols m)) ENonSquareMatrix ;;;
  Ok (Mx (mrows m) (mcols m) (mbasis m) (lu_inplace (mrows m) (mel m))).
(** lu.h:18-58, lu.tpp:16-32; [lp_order] has rows() entries *)
Record lu_pivot_result : Type := LP { lp_lu : mx T; lp_order : list nat; lp_sign : sign }.
Definition lu_pivot (m : mx T) : out lu_pivot_result :=
  require (Nat.eqb (mrows m) (mcols m)) ENonSquareMatrix ;;;
  let '(A, order, s) := lu_pivot_inplace (mrows m) (mel m) in
  Ok (LP (Mx (mrows m) (mcols m) (mbasis m) A) (map order (seq 0 (mrows m))) s).

(** lu.tpp:70-76, 120-126: forward substitution on the right-hand side [b] *)
Definition forward (N : nat) (LU : grid) (b : nat -> T) : nat -> T :=
  for_upto 0 N (fun i y => put y i (b i -! sum_prod 0 i (fun j => LU i j) y)) (fun _ => zero).
(** lu.tpp:81-86, 131-136: backward substitution into [x] *)
Definition backward (N : nat) (LU : grid) (y x : nat -> T) : nat -> T :=
  for_downto 0 N (fun i x => put x i ((y i -! sum_prod (i + 1) N (fun j => LU i j) x) /! LU i i)) x.
(** lu.tpp:54-89: the vector x after the call; [x] may be the vector [b] itself:
    b is not read once x is written.  check_same_inner_size: matrix/size_checking.tpp *)
Definition lu_solve_to (LU : mx T) (x b : list T) : out (list T) :=
  require (Nat.eqb (mrows LU) (mcols LU)) ENonSquareMatrix ;;;
  require (Nat.eqb (mcols LU) (length x)) EIncompatibleMatrixInnerSize ;;;
  require (Nat.eqb (mcols LU) (length b)) EIncompatibleMatrixInnerSize ;;;
  let N := length b in
  let y := forward N (mel LU) (el b) in
  Ok (map (backward N (mel LU) y (el x)) (seq 0 N)).
(** lu.tpp:44-52; x is a temporary of the size of b with unspecified elements *)
Definition lu_solve (LU : mx T) (b : list T) : out (list T) :=
  lu_solve_to LU (repeat zero (length b)) b.
(** lu.tpp:102-140.  No check_square here: a result of lu_pivot is square. *)
Definition lu_pivot_solve_to (lup : lu_pivot_result) (x b : list T) : out (list T) :=
  require (Nat.eqb (mcols (lp_lu lup)) (length x)) EIncompatibleMatrixInnerSize ;;;
  require (Nat.eqb (mcols (lp_lu lup)) (length b)) EIncompatibleMatrixInnerSize ;;;
  require (match lp_sign lup with sgn_zero => false | _ => true end) EInvalidArgument ;;;
  let N := length b in
  let LU := mel (lp_lu lup) in
  let y := forward N LU (fun i => el b (nth i (lp_order lup) 0)) in
  Ok (map (backward N LU y (el x)) (seq 0 N)).
(** lu.tpp:91-100 *)
Definition lu_pivot_solve (lup : lu_pivot_result) (b : list T) : out (list T) :=
  lu_pivot_solve_to lup (repeat zero (length b)) b.
End LU.
