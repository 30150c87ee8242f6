(** Specification of query simplification: linear forms over firing counts, and the queries
    on which the 32-bit arithmetic of the simplifier is exact. *)
From Verif Require Import Base NetSpec PqlSyntax PqlSpec LpSpec.
Set Implicit Arguments.

(** v_0 x_i + v_1 x_(i+1) + ... *)
Fixpoint lin (i : nat) (v : list Z) (x : nat -> Z) : Z :=
  match v with
  | [] => 0
  | z :: v => z * x i + lin (S i) v x
  end%Z.

Definition int32 (z : Z) : bool := ((- 2 ^ 31 <=? z) && (z <? 2 ^ 31))%Z.
(** every constant of the expression is an int, and every place is one of the net's *)
Fixpoint expr_ok (np : nat) (e : expr) : bool :=
  match e with
  | Lit z => int32 z
  | Pl p => p <? np
  | Ident e | Minus e => expr_ok np e
  | Sub e es => expr_ok np e && forallb (expr_ok np) es
  | Plus c ids es | Mul c ids es => int32 c && forallb (fun p => p <? np) ids && forallb (expr_ok np) es
  end.
(** in the initial marking both sides of every comparison are well within the int range,
    and the bounds of intervals are ints or infinite *)
Definition val_ok (m0 : marking) (e : expr) : bool := ((- 2 ^ 30 <? den m0 e) && (den m0 e <? 2 ^ 30))%Z.
Definition bound_ok (np : nat) (c : cons) : bool :=
  (c_place c <? np) && (c_lower c <? 2 ^ 31)%N && ((c_upper c <? 2 ^ 31) || (c_upper c =? u32max))%N.
Fixpoint query_ok (np : nat) (m0 : marking) (c : cond) : bool :=
  match c with
  | CBool _ | CDead => true
  | CNot c | CEX c | CAX c | CEF c | CAF c | CEG c | CAG c | CE c | CA c | CF c | CG c | CX c => query_ok np m0 c
  | CAnd l | COr l => forallb (query_ok np m0) l
  | CCmp o a b => expr_ok np a && expr_ok np b && val_ok m0 a && val_ok m0 b
  | CConj _ cs => forallb (bound_ok np) cs
  | CEU a b | CAU a b | CU a b => query_ok np m0 a && query_ok np m0 b
  end.
