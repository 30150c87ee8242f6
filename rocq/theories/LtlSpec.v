(** Specification of linear-time model checking of a net against a Büchi automaton.
    Written from the textbook definitions; nothing here is used by the searches. *)
From Verif Require Import Base NetSpec PqlSyntax PqlSpec.
Set Implicit Arguments.

(** A guard of an automaton edge: a binary decision diagram over atomic propositions. *)
Inductive bdd :=
| BFalse
| BTrue
| BNode (v : nat) (lo hi : bdd).

(** A Büchi automaton over markings: start state, guarded edges of a state, accepting states,
    and the meaning of each atomic proposition in a marking. *)
Record buchi := mkBuchi {
  ba_init : nat;
  ba_edges : nat -> list (bdd * nat);
  ba_acc : nat -> bool;
  ba_ap : nat -> marking -> bool
}.

(** What a guard says about a marking. *)
Fixpoint gholds (ap : nat -> marking -> bool) (g : bdd) (m : marking) : Prop :=
  match g with
  | BFalse => False
  | BTrue => True
  | BNode v lo hi => (ap v m = true /\ gholds ap hi m) \/ (ap v m = false /\ gholds ap lo m)
  end.

(** Infinite runs of the net are the maximal runs of PqlSpec: each step is a firing, or standing
    still when nothing is enabled. *)
Definition run_from (net : pnet) (m0 : marking) (r : nat -> marking) : Prop :=
  maximal net r /\ r 0 = m0.

(** The automaton reads the markings one after the other and passes accepting states infinitely
    often. *)
Definition accepts (a : buchi) (r : nat -> marking) : Prop :=
  exists q : nat -> nat, q 0 = ba_init a /\
    (forall i, exists g, In (g, q (S i)) (ba_edges a (q i)) /\ gholds (ba_ap a) g (r i)) /\
    (forall n, exists i, n <= i /\ ba_acc a (q i) = true).

(** A marking respects the bound on the total number of tokens, 0 meaning no bound. *)
Definition within (k : N) (m : marking) : Prop := k = 0%N \/ (sumN m <= k)%N.

(** An order in which the firings of a marking are listed, possibly another one at each call:
    on every reachable marking only firings are listed, and all of them unless the listing ends
    with an exception. *)
Definition enumerates (net : pnet) (m0 : marking) (order : nat -> marking -> nat -> list (nat * marking) * res unit) : Prop :=
  forall k m q, reachable net m0 m ->
    (forall t m', In (t, m') (fst (order k m q)) -> step net m t m') /\
    (snd (order k m q) = Throw \/
     snd (order k m q) = Ok tt /\ forall t m', step net m t m' -> In (t, m') (fst (order k m q))).

(** What an answer of a search means: "no" comes with an accepted run of the net, "yes" means that
    no run within the token bound is accepted; there is no undefined behaviour. *)
Definition answer_right (net : pnet) (m0 : marking) (aut : buchi) (kbound : N) (r : res bool) : Prop :=
  match r with
  | Ok true => forall run, run_from net m0 run -> (forall i, within kbound (run i)) -> ~ accepts aut run
  | Ok false => exists run, run_from net m0 run /\ accepts aut run
  | Throw | NoFuel => True
  | UB => False
  end.
