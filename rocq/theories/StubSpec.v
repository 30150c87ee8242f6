(** Specification for partial order reduction: exploring only chosen transitions, and the
    goal formulas that the reduction supports. *)
From Verif Require Import Base NetSpec PqlSyntax PqlSpec.
Set Implicit Arguments.

(** the markings found from [m0] when in each marking only the chosen transitions are fired *)
Inductive explored (net : pnet) (sel : marking -> list nat) (m0 : marking) : marking -> Prop :=
| ex_start : explored net sel m0 m0
| ex_next : forall m t m', explored net sel m0 m -> In t (sel m) -> step net m t m' -> explored net sel m0 m'.

(** Expressions: unary minus only of constants, and a product of one factor with a constant
    has a constant that is not negative. *)
Fixpoint por_expr (e : expr) : bool :=
  match e with
  | Lit _ | Pl _ => true
  | Ident e => por_expr e
  | Minus e => constant e
  | Sub e es => por_expr e && forallb por_expr es
  | Plus _ _ es => forallb por_expr es
  | Mul c ids es => (negb (Nat.eqb (length ids + length es) 1) || (0 <=? c)%Z) && forallb por_expr es
  end.
Fixpoint por_cond (c : cond) : bool :=
  match c with
  | CCmp _ x y => por_expr x && por_expr y
  | CNot c => por_cond c
  | CAnd l | COr l => forallb por_cond l
  | _ => true
  end.
(** the compared values fit in 32 bits *)
Definition int32 (z : Z) : Prop := (- 2 ^ 31 <= z < 2 ^ 31)%Z.
Fixpoint small (m : marking) (c : cond) : Prop :=
  match c with
  | CCmp _ x y => int32 (den m x) /\ int32 (den m y)
  | CNot c => small m c
  | CAnd l | COr l => fold_right and True (map (small m) l)
  | _ => True
  end.
