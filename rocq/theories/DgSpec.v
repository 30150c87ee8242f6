(** Dependency graphs with negation, and what it means to solve them. *)
From Verif Require Import Base.
Set Implicit Arguments.

Section Graph.
  Variable conf : Type.
  (** A hyper-edge, or a negation edge. *)
  Record hedge := mkHedge { h_neg : bool; h_targets : list conf }.
  Definition graph := conf -> list hedge.

  Definition fires (val : conf -> Prop) (e : hedge) : Prop :=
    if h_neg e then exists t, In t (h_targets e) /\ ~ val t
    else forall t, In t (h_targets e) -> val t.
  (** [e] cannot fire as long as nothing in [S] is true *)
  Definition stuck (val S : conf -> Prop) (e : hedge) : Prop :=
    if h_neg e then forall t, In t (h_targets e) -> val t
    else exists t, In t (h_targets e) /\ (S t \/ ~ val t).
  (** [val] is the meaning of the graph: a configuration is true exactly if one of its edges
      fires, and nothing is true without a reason: a set of configurations whose edges are
      all stuck contains no true one. *)
  Record solution (g : graph) (val : conf -> Prop) : Prop := {
    sol_fix : forall c, val c <-> exists e, In e (g c) /\ fires val e;
    sol_least : forall S : conf -> Prop,
      (forall c, S c -> forall e, In e (g c) -> stuck val S e) -> forall c, S c -> ~ val c
  }.
  (** Negation edges have one target, and the nesting depth of negations is well defined. *)
  Record leveled (g : graph) (init : conf) (depth : conf -> nat) : Prop := {
    lev_init : depth init = 0;
    lev_neg : forall c e, In e (g c) -> h_neg e = true -> exists t, h_targets e = [t];
    lev_depth : forall c e t, In e (g c) -> In t (h_targets e) ->
      depth t = depth c + (if h_neg e then 1 else 0)
  }.
End Graph.
