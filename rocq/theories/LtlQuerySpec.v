(** Specification for the translation of queries to automata: linear-time formulas over named
    propositions, the words they accept, and what is asked of the external library (spot) that
    translates and simplifies them. *)
From Verif Require Import Base NetSpec PqlSyntax PqlSpec LtlSpec.
Set Implicit Arguments.

(** Names of propositions: a number, or the printed text of a condition (which is taken to
    identify the condition). *)
Inductive name := NIdx (n : nat) | NText (c : cond).

(** Formulas of the library. *)
Inductive sform :=
| SBool (b : bool)
| SAp (t : name)
| SNot (f : sform)
| SAnd (l : list sform)
| SOr (l : list sform)
| SX (f : sform) | SF (f : sform) | SG (f : sform)
| SU (f g : sform).

(** Words: which propositions hold at each position. *)
Fixpoint wsat (w : nat -> name -> Prop) (i : nat) (f : sform) : Prop :=
  match f with
  | SBool b => b = true
  | SAp t => w i t
  | SNot f => ~ wsat w i f
  | SAnd l => fold_right and True (map (wsat w i) l)
  | SOr l => fold_right or False (map (wsat w i) l)
  | SX f => wsat w (S i) f
  | SF f => exists j, wsat w (i + j) f
  | SG f => forall j, wsat w (i + j) f
  | SU f g => exists j, wsat w (i + j) g /\ forall k, k < j -> wsat w (i + k) f
  end.

(** An automaton over numbered propositions, and the number of each name. *)
Record saut := mkSaut {
  sa_init : nat;
  sa_edges : nat -> list (bdd * nat);
  sa_acc : nat -> bool;
  sa_var : name -> nat
}.
Fixpoint geval (v : nat -> bool) (g : bdd) : Prop :=
  match g with
  | BFalse => False
  | BTrue => True
  | BNode x lo hi => (v x = true /\ geval v hi) \/ (v x = false /\ geval v lo)
  end.
Definition waccepts (a : saut) (w : nat -> nat -> bool) : Prop :=
  exists q : nat -> nat, q 0 = sa_init a /\
    (forall i, exists g, In (g, q (S i)) (sa_edges a (q i)) /\ geval (w i) g) /\
    (forall n, exists i, n <= i /\ sa_acc a (q i) = true).

(** The names in a formula. *)
Fixpoint names (f : sform) : list name :=
  match f with
  | SBool _ => []
  | SAp t => [t]
  | SNot f | SX f | SF f | SG f => names f
  | SAnd l | SOr l => flat_map names l
  | SU f g => names f ++ names g
  end.
(** The library translates a formula right: its automaton accepts the words that satisfy it, and
    different names get different numbers. *)
Definition translates (tr : sform -> saut) (f : sform) : Prop :=
  (forall s t, In s (names f) -> In t (names f) -> sa_var (tr f) s = sa_var (tr f) t -> s = t) /\
  forall w, waccepts (tr f) w <-> wsat (fun i t => w i (sa_var (tr f) t) = true) 0 f.
(** The library simplifies right: the result has the same words and no new propositions. *)
Definition simplifies (s : sform -> sform) : Prop :=
  forall f, (forall w, wsat w 0 (s f) <-> wsat w 0 f) /\ incl (names (s f)) (names f).

(** Queries of linear time: a path formula under one path quantifier. *)
Definition ltl_query (q : cond) : bool :=
  match q with
  | CA c | CE c | CAG c | CAF c | CEG c | CEF c => ltl c
  | CAU a b | CEU a b => ltl a && ltl b
  | _ => false
  end.

(** A rewriting of path formulas keeps their meaning on the runs from [m0]. *)
Definition keeps (net : pnet) (m0 : marking) (rw : cond -> res cond) : Prop :=
  forall c c', ltl c = true -> rw c = Ok c' ->
    ltl c' = true /\ forall pi, run_from net m0 pi -> (holds net pi c' <-> holds net pi c).
