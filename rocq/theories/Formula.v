(** Formulas over + - * / and negation.  A function of the model run on formulas
    instead of numbers returns its own syntax tree. *)
From Coq Require Import List.
From Verif Require Import Base.
Inductive formula : Type :=
| FVar (k : nat) | FZero | FOne
| FAdd (a b : formula) | FSub (a b : formula) | FMul (a b : formula) | FNeg (a : formula)
| FOther (a b : formula).   (* division: not covered, see [plain] *)
#[export] Instance formula_ops : Ops formula := {|
  zero := FZero; one := FOne; add := FAdd; sub := FSub; mul := FMul; div := FOther; neg := FNeg;
  ltb := fun _ _ => false; eqb := fun _ _ => false |}.
Fixpoint plain (e : formula) : Prop :=
  match e with
  | FVar _ | FZero | FOne => True
  | FAdd a b | FSub a b | FMul a b => plain a /\ plain b
  | FNeg a => plain a
  | FOther _ _ => False
  end.
(** the value in any arithmetic *)
Fixpoint feval {T} {Op : Ops T} (rho : nat -> T) (e : formula) : T :=
  match e with
  | FVar k => rho k | FZero => zero | FOne => one
  | FAdd a b => add (feval rho a) (feval rho b)
  | FSub a b => sub (feval rho a) (feval rho b)
  | FMul a b => mul (feval rho a) (feval rho b)
  | FNeg a => neg (feval rho a)
  | FOther a b => div (feval rho a) (feval rho b)
  end.
(** sums of products of variables: the whole bounds its parts *)
Fixpoint atom (e : formula) : Prop := match e with FVar _ | FZero | FOne => True | FNeg a => atom a | _ => False end.
Fixpoint flat (e : formula) : Prop :=
  match e with
  | FAdd a b | FSub a b => flat a /\ flat b
  | FMul a b => atom a /\ atom b
  | FNeg a => flat a
  | FOther _ _ => False
  | _ => True
  end.
