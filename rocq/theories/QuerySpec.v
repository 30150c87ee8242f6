(** Specification vocabulary for the compilation and classification of queries. *)
From Verif Require Import Base NetSpec PqlSyntax PqlSpec.
Set Implicit Arguments.

(** Subformulas. *)
Definition children (c : cond) : list cond :=
  match c with
  | CBool _ | CDead | CCmp _ _ _ | CConj _ _ => []
  | CNot c | CEX c | CAX c | CEF c | CAF c | CEG c | CAG c | CE c | CA c | CF c | CG c | CX c => [c]
  | CAnd l | COr l => l
  | CEU a b | CAU a b | CU a b => [a; b]
  end.
Inductive occurs (x : cond) : cond -> Prop :=
| occurs_here : occurs x x
| occurs_in : forall c d, In d (children c) -> occurs x d -> occurs x c.

Definition next_op (c : cond) : Prop := match c with CEX _ | CAX _ | CX _ => True | _ => False end.
Definition temporal_op (c : cond) : Prop :=
  match c with
  | CEX _ | CAX _ | CEF _ | CAF _ | CEG _ | CAG _ | CEU _ _ | CAU _ _
  | CE _ | CA _ | CF _ | CG _ | CX _ | CU _ _ => True
  | _ => False
  end.
Definition logical (c : cond) : Prop := match c with CAnd _ | COr _ => True | _ => False end.

(** A reachability query: negations of "some reachable marking satisfies b" (EF b, E F b)
    or "all reachable markings satisfy b" (AG b, A G b), where b has no temporal operator. *)
Inductive reach_query : cond -> Prop :=
| rq_EF : forall b, atomic b = true -> reach_query (CEF b)
| rq_AG : forall b, atomic b = true -> reach_query (CAG b)
| rq_E_F : forall b, atomic b = true -> reach_query (CE (CF b))
| rq_A_G : forall b, atomic b = true -> reach_query (CA (CG b))
| rq_Not : forall c, reach_query c -> reach_query (CNot c).

(** A deadlock proposition inside a conjunction or disjunction. *)
Definition nested_deadlock (c : cond) : Prop := exists l, logical l /\ occurs l c /\ occurs CDead l.
(** No conjunction or disjunction inside another one. *)
Fixpoint no_logical (c : cond) : bool :=
  match c with
  | CAnd _ | COr _ => false
  | CBool _ | CDead | CCmp _ _ _ | CConj _ _ => true
  | CNot c | CEX c | CAX c | CEF c | CAF c | CEG c | CAG c | CE c | CA c | CF c | CG c | CX c => no_logical c
  | CEU a b | CAU a b | CU a b => no_logical a && no_logical b
  end.
Fixpoint flat (c : cond) : bool :=
  match c with
  | CAnd l | COr l => forallb no_logical l
  | CBool _ | CDead | CCmp _ _ _ | CConj _ _ => true
  | CNot c | CEX c | CAX c | CEF c | CAF c | CEG c | CAG c | CE c | CA c | CF c | CG c | CX c => flat c
  | CEU a b | CAU a b | CU a b => flat a && flat b
  end.

(** [net'] has the behaviour of [net] plus transitions that do not change the marking. *)
Definition adds_loops (net net' : pnet) : Prop :=
  (forall m m', nstep net m m' -> nstep net' m m') /\
  (forall m m', nstep net' m m' -> nstep net m m' \/ m' = m).
(** Linear-time until only below an odd number of negations ([pos] false at the start). *)
Fixpoint until_at (pos : bool) (c : cond) : bool :=
  match c with
  | CNot c => until_at (negb pos) c
  | CAnd l | COr l => forallb (until_at pos) l
  | CU a b => pos && until_at pos a && until_at pos b
  | CX c | CF c | CG c => until_at pos c
  | _ => true
  end.
(** ... in every formula below a path quantifier A. *)
Fixpoint untils_negative (c : cond) : bool :=
  match c with
  | CA c => until_at false c
  | CBool _ | CDead | CCmp _ _ _ | CConj _ _ | CE _ | CF _ | CG _ | CX _ | CU _ _ => true
  | CNot c | CEX c | CAX c | CEF c | CAF c | CEG c | CAG c => untils_negative c
  | CAnd l | COr l => forallb untils_negative l
  | CEU a b | CAU a b => untils_negative a && untils_negative b
  end.
