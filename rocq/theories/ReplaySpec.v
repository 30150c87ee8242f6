(** Specification of traces and of what it means that a trace is right. *)
From Verif Require Import Base NetSpec.
Set Implicit Arguments.

(** The elements of a trace: the loop tag, a transition with its name and the places of the
    tokens it is said to consume, and the deadlock tag. *)
Inductive tnode :=
| TLoop
| TTrans (id : option nat) (places : list nat)
| TDead (places : list nat).

Section Trace.
  Variable net : pnet.
  (** names of places and transitions, by index; the reserved name of deadlock entries *)
  Variables pnames tnames : list nat.
  Variable dl : nat.

  (** The listed places are places of the net; the list is shorter than 2^32. *)
  Definition known_places (l : list nat) : Prop :=
    (forall n, In n l -> In n pnames) /\ (N.of_nat (length l) < 2 ^ 32)%N.
  (** The list is empty, or every normal input arc is listed as often as its weight. *)
  Definition claims_ok (tr : trans) (l : list nat) : Prop :=
    l = [] \/ forall a n, In a (tr_pre tr) -> arc_inhib a = false -> nth_error pnames (arc_place a) = Some n ->
      N.of_nat (count_occ Nat.eq_dec l n) = arc_weight a.

  (** [plays m l m']: the transitions of [l] (loop tags ignored) fire one after the other
      from [m], ending in [m'], each with correct token claims. *)
  Inductive plays : marking -> list tnode -> marking -> Prop :=
  | plays_nil : forall m, plays m [] m
  | plays_loop : forall m l m', plays m l m' -> plays m (TLoop :: l) m'
  | plays_fire : forall m t tr id ps m1 l m',
      id <> dl -> nth_error tnames t = Some id -> nth_error (pn_trans net) t = Some tr ->
      fires tr m m1 -> claims_ok tr ps -> plays m1 l m' -> plays m (TTrans (Some id) ps :: l) m'.

  Definition is_dead_node (n : tnode) : Prop :=
    match n with TDead _ => True | TTrans (Some id) _ => id = dl | _ => False end.
  Definition is_loop (n : tnode) : bool := match n with TLoop => true | _ => false end.
  Definition no_loop (l : list tnode) : Prop := forall n, In n l -> is_loop n = false.

  (** [right m0 l]: up to its first deadlock entry the trace is a run from [m0] that ends in
      a deadlock; or it has no deadlock entry, is a run, and if a loop tag is followed by
      transitions, the last loop tag stands at the marking the run ends in. *)
  Definition right (m0 : marking) (l : list tnode) : Prop :=
    (exists l1 d l2 m, l = l1 ++ d :: l2 /\ is_dead_node d /\ plays m0 l1 m /\ dead net m) \/
    (exists m, plays m0 l m /\
       forall l1 l2, l = l1 ++ TLoop :: l2 -> no_loop l2 -> l2 <> [] -> plays m0 l1 m).

  (** Every element can be read: transitions have names, listed places exist. *)
  Definition readable (l : list tnode) : Prop :=
    forall n, In n l -> match n with
      | TLoop => True
      | TTrans id ps => id <> None /\ known_places ps
      | TDead ps => known_places ps
      end.
End Trace.
