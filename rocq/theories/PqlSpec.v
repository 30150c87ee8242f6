(** Meaning of PQL formulas over the markings of a net: arithmetic over the integers, CTL
    and LTL over maximal runs.  Written from the textbook definitions. *)
From Verif Require Import Base NetSpec PqlSyntax.
Set Implicit Arguments.

(** Value of an expression in a marking. *)
Fixpoint den (m : marking) (e : expr) : Z :=
  match e with
  | Lit z => z
  | Pl p => Z.of_N (tokens m p)
  | Ident e => den m e
  | Minus e => - den m e
  | Sub e es => den m e - fold_right Z.add 0 (map (den m) es)
  | Plus c ids es =>
      c + fold_right Z.add 0 (map (fun p => Z.of_N (tokens m p)) ids) + fold_right Z.add 0 (map (den m) es)
  | Mul c ids es =>
      c * fold_right Z.mul 1 (map (fun p => Z.of_N (tokens m p)) ids) * fold_right Z.mul 1 (map (den m) es)
  end%Z.

Definition cmp_holds (o : cmp) (x y : Z) : Prop :=
  match o with OpEq => x = y | OpNe => x <> y | OpLt => x < y | OpLe => x <= y end%Z.

(** An interval constraint; the largest 32-bit number as upper end means "unbounded". *)
Definition cons_holds (m : marking) (c : cons) : Prop :=
  (c_lower c <= tokens m (c_place c))%N /\ (c_upper c = u32max \/ (tokens m (c_place c) <= c_upper c)%N).

(** One step, and maximal runs: infinite sequences of steps; a run that reaches a dead
    marking stays there. *)
Definition nstep (net : pnet) (m m' : marking) : Prop := exists t, step net m t m'.
Definition path := nat -> marking.
Definition maximal (net : pnet) (pi : path) : Prop :=
  forall i, nstep net (pi i) (pi (S i)) \/ (dead net (pi i) /\ pi (S i) = pi i).
Definition shift (i : nat) (pi : path) : path := fun j => pi (i + j).
(** maximal runs from the first marking of [pi] *)
Definition from (net : pnet) (pi rho : path) : Prop := maximal net rho /\ rho 0 = pi 0.

(** [holds net pi c]: formula [c] on the run [pi]; state formulas look only at [pi 0].
    EX and AX refer to successors: in a dead marking EX is false and AX true. *)
Fixpoint holds (net : pnet) (pi : path) (c : cond) : Prop :=
  match c with
  | CBool b => b = true
  | CDead => dead net (pi 0)
  | CNot c => ~ holds net pi c
  | CAnd l => fold_right and True (map (holds net pi) l)
  | COr l => fold_right or False (map (holds net pi) l)
  | CCmp o a b => cmp_holds o (den (pi 0) a) (den (pi 0) b)
  | CConj false cs => Forall (cons_holds (pi 0)) cs
  | CConj true cs => ~ Forall (cons_holds (pi 0)) cs
  | CEX c => exists rho, from net pi rho /\ nstep net (rho 0) (rho 1) /\ holds net (shift 1 rho) c
  | CAX c => forall rho, from net pi rho -> nstep net (rho 0) (rho 1) -> holds net (shift 1 rho) c
  | CEF c => exists rho, from net pi rho /\ exists i, holds net (shift i rho) c
  | CAF c => forall rho, from net pi rho -> exists i, holds net (shift i rho) c
  | CEG c => exists rho, from net pi rho /\ forall i, holds net (shift i rho) c
  | CAG c => forall rho, from net pi rho -> forall i, holds net (shift i rho) c
  | CEU a b => exists rho, from net pi rho /\
      exists i, holds net (shift i rho) b /\ forall j, j < i -> holds net (shift j rho) a
  | CAU a b => forall rho, from net pi rho ->
      exists i, holds net (shift i rho) b /\ forall j, j < i -> holds net (shift j rho) a
  | CE c => exists rho, from net pi rho /\ holds net rho c
  | CA c => forall rho, from net pi rho -> holds net rho c
  | CX c => holds net (shift 1 pi) c
  | CF c => exists i, holds net (shift i pi) c
  | CG c => forall i, holds net (shift i pi) c
  | CU a b => exists i, holds net (shift i pi) b /\ forall j, j < i -> holds net (shift j pi) a
  end.

(** A state formula is satisfied in a marking if it holds on the runs from there. *)
Definition sat (net : pnet) (m : marking) (c : cond) : Prop :=
  forall pi, maximal net pi -> pi 0 = m -> holds net pi c.

(** Syntactic classes. *)
(** no path quantifiers or path operators *)
Fixpoint atomic (c : cond) : bool :=
  match c with
  | CBool _ | CDead | CCmp _ _ _ | CConj _ _ => true
  | CNot c => atomic c
  | CAnd l | COr l => forallb atomic l
  | _ => false
  end.
(** path formulas of LTL *)
Fixpoint ltl (c : cond) : bool :=
  match c with
  | CBool _ | CDead | CCmp _ _ _ | CConj _ _ => true
  | CNot c | CX c | CF c | CG c => ltl c
  | CAnd l | COr l => forallb ltl l
  | CU a b => ltl a && ltl b
  | _ => false
  end.
(** state formulas: CTL, and LTL formulas under a path quantifier *)
Fixpoint stf (c : cond) : bool :=
  match c with
  | CBool _ | CDead | CCmp _ _ _ | CConj _ _ => true
  | CNot c | CEX c | CAX c | CEF c | CAF c | CEG c | CAG c => stf c
  | CAnd l | COr l => forallb stf l
  | CEU a b | CAU a b => stf a && stf b
  | CE c | CA c => ltl c
  | _ => false
  end.

(** Formulas on which the rewriting of comparisons is exact.  A comparison of a place with
    a constant is kept in 32 bits, so the constant must be in range and the comparison
    must not be vacuous (p >= 0, p <= 2^32-1, p < 0, ...); and the two sides of a
    comparison must not be products with a common place. *)
Definition u32range (lo hi z : Z) : bool := ((lo <=? z) && (z <? hi))%Z.
Fixpoint constant (e : expr) : bool :=
  match e with
  | Lit _ => true
  | Pl _ => false
  | Ident e | Minus e => constant e
  | Sub e es => constant e && forallb constant es
  | Plus _ ids es | Mul _ ids es => match ids with [] => forallb constant es | _ => false end
  end.
Definition cmp_range (o : cmp) (a b : expr) : bool :=
  match a, b with
  | Mul _ i _, Mul _ j _ => forallb (fun p => negb (existsb (Nat.eqb p) j)) i
  | Pl _, _ => negb (constant b) ||
      match o with
      | OpLt => u32range 1 (2 ^ 32) (den [] b)
      | _ => u32range 0 (2 ^ 32 - 1) (den [] b)
      end
  | _, Pl _ => negb (constant a) ||
      match o with
      | OpLe => u32range 1 (2 ^ 32) (den [] a)
      | _ => u32range 0 (2 ^ 32 - 1) (den [] a)
      end
  | _, _ => true
  end.
Definition cons_proper (c : cons) : bool :=
  ((c_lower c <=? u32max) && (c_upper c <=? u32max) && negb ((c_lower c =? 0) && (c_upper c =? u32max)))%N.
Fixpoint in_range (c : cond) : bool :=
  match c with
  | CBool _ | CDead => true
  | CNot c | CEX c | CAX c | CEF c | CAF c | CEG c | CAG c | CE c | CA c | CF c | CG c | CX c => in_range c
  | CAnd l | COr l => forallb in_range l
  | CCmp o a b => cmp_range o a b
  | CConj _ cs => forallb cons_proper cs
  | CEU a b | CAU a b | CU a b => in_range a && in_range b
  end.
