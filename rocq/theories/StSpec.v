(** Siphons and traps of place/transition nets. *)
From Verif Require Import Base NetSpec.
Set Implicit Arguments.

(** A siphon: who adds to the set takes from the set. *)
Definition siphon (net : pnet) (X : nat -> Prop) : Prop :=
  (forall p, X p -> p < pn_places net) /\
  forall t tr, nth_error (pn_trans net) t = Some tr ->
    (exists a, In a (tr_post tr) /\ X (arc_place a)) -> exists a, In a (tr_pre tr) /\ X (arc_place a).
(** A trap: who takes from the set adds to the set. *)
Definition trap (net : pnet) (X : nat -> Prop) : Prop :=
  (forall p, X p -> p < pn_places net) /\
  forall t tr, nth_error (pn_trans net) t = Some tr ->
    (exists a, In a (tr_pre tr) /\ X (arc_place a)) -> exists a, In a (tr_post tr) /\ X (arc_place a).
(** A set of places with a token. *)
Definition marked_set (m : marking) (X : nat -> Prop) : Prop := exists p, X p /\ (0 < tokens m p)%N.
(** Every siphon that is not empty contains a marked trap. *)
Definition siphon_trap_property (net : pnet) (m : marking) : Prop :=
  forall X, siphon net X -> (exists p, X p) -> exists T, trap net T /\ (forall p, T p -> X p) /\ marked_set m T.
