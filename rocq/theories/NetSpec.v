(** Specification of place/transition nets with inhibitor arcs.
    Written from the textbook definition; the model of the code does not use
    these definitions, the property theorems relate the two. *)
From Verif Require Import Base.
Set Implicit Arguments.

(** An arc between a transition and a place. *)
Record arc := mkArc { arc_place : nat; arc_weight : N; arc_inhib : bool }.

(** A transition: input arcs (normal or inhibitor) and output arcs. *)
Record trans := mkTrans { tr_pre : list arc; tr_post : list arc }.

(** A net: number of places and transitions. *)
Record pnet := mkPnet { pn_places : nat; pn_trans : list trans }.

(** A marking gives a number of tokens to each place. *)
Definition marking := list N.
Definition tokens (m : marking) (p : nat) : N := nth p m 0%N.

(** An input arc allows firing in [m]. *)
Definition arc_ok (m : marking) (a : arc) : Prop :=
  if arc_inhib a
  then (tokens m (arc_place a) < arc_weight a)%N
  else (arc_weight a <= tokens m (arc_place a))%N.

(** A transition is enabled when all its input arcs allow it. *)
Definition enabled (t : trans) (m : marking) : Prop :=
  forall a, In a (tr_pre t) -> arc_ok m a.

(** Total weight of the arcs of a list that move tokens at place [p]. *)
Definition weight_at (l : list arc) (p : nat) : N :=
  sumN (map arc_weight
          (filter (fun a => andb (Nat.eqb (arc_place a) p) (negb (arc_inhib a))) l)).

(** [fires t m m']: [t] is enabled in [m], and [m'] is [m] minus the inputs
    plus the outputs, at every place. *)
Definition fires (t : trans) (m m' : marking) : Prop :=
  enabled t m /\
  length m' = length m /\
  forall p, p < length m ->
    (weight_at (tr_pre t) p <= tokens m p)%N /\
    (tokens m' p = tokens m p - weight_at (tr_pre t) p + weight_at (tr_post t) p)%N.

(** One step of a net by transition number [t]. *)
Definition step (net : pnet) (m : marking) (t : nat) (m' : marking) : Prop :=
  exists tr, nth_error (pn_trans net) t = Some tr /\ fires tr m m'.

(** Markings of the right length. *)
Definition marking_of (net : pnet) (m : marking) : Prop := length m = pn_places net.

(** No transition enabled. *)
Definition dead (net : pnet) (m : marking) : Prop :=
  forall t tr, nth_error (pn_trans net) t = Some tr -> ~ enabled tr m.

(** [run net m w m']: the transition sequence [w] leads from [m] to [m']. *)
Inductive run (net : pnet) : marking -> list nat -> marking -> Prop :=
| run_nil : forall m, run net m [] m
| run_cons : forall m t m1 w m2,
    step net m t m1 -> run net m1 w m2 -> run net m (t :: w) m2.

Definition reachable (net : pnet) (m m' : marking) : Prop :=
  exists w, run net m w m'.

(** Well-formed nets: arcs point to places, at most one input arc and one output
    arc per place and transition, output arcs are not inhibitors. *)
Definition wf_trans (np : nat) (t : trans) : Prop :=
  (forall a, In a (tr_pre t) -> arc_place a < np) /\
  (forall a, In a (tr_post t) -> arc_place a < np /\ arc_inhib a = false) /\
  NoDup (map arc_place (tr_pre t)) /\
  NoDup (map arc_place (tr_post t)).
Definition wf_pnet (net : pnet) : Prop :=
  forall t, In t (pn_trans net) -> wf_trans (pn_places net) t.
