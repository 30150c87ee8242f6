(** Specification of the queries on which trace abstraction refinement is exact. *)
From Verif Require Import Base NetSpec NetModel PqlSyntax.
From Coq Require Import List.

(** the places that the interval constraints of a query compare *)
Fixpoint compared (c : cond) : list nat :=
  match c with
  | CNot c => compared c
  | CAnd l | COr l => flat_map compared l
  | CConj _ cs => map c_place cs
  | _ => []
  end.
(** whether a query mentions deadlocks *)
Fixpoint mentions_dead (c : cond) : Prop :=
  match c with
  | CDead => True
  | CNot c => mentions_dead c
  | CAnd l | COr l => fold_right or False (map mentions_dead l)
  | _ => False
  end.
Definition apart (a b : list nat) : Prop := forall p, In p a -> ~ In p b.
(** Interval constraints on different places, deadlock tests, conjunctions and disjunctions.
    Operands of one conjunction or disjunction compare different places, and in a
    disjunction no comparison comes after a deadlock test. *)
Fixpoint separate (c : cond) : Prop :=
  match c with
  | CDead => True
  | CConj _ cs => NoDup (map c_place cs) /\ forall x, In x cs -> (c_lower x <= u32max)%N /\ (c_upper x <= u32max)%N
  | CAnd l => fold_right and True (map separate l) /\ ForallOrdPairs (fun a b => apart (compared a) (compared b)) l
  | COr l => fold_right and True (map separate l) /\
      ForallOrdPairs (fun a b => apart (compared a) (compared b) /\ (mentions_dead a -> compared b = [])) l
  | _ => False
  end.

(** Nets as the builder makes them, without inhibitor arcs, on which neither a weight nor a
    reachable number of tokens leaves 32 bits. *)
Definition plain (net : cnet) : Prop :=
  layout net /\ 0 < cn_places net /\ dirs_ok net /\ sorted_arcs net /\ length (cn_init net) = cn_places net /\
  (forall t a, t < cn_ntrans net -> In a (tr_pre (net_trans net t)) \/ In a (tr_post (net_trans net t)) ->
     (arc_weight a <= u32max)%N /\ arc_inhib a = false) /\
  (forall m p, reachable (to_pnet net) (cn_init net) m -> (tokens m p <= u32max)%N).
