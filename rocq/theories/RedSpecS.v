(** When rules S and T are fair to a query. *)
From Verif Require Import Base NetSpec NetModel BuilderModel RedModel.
Set Implicit Arguments.

(** Consumer [c] of [p] can take all that a producer of [p] puts there, in some number of firings,
    and nothing before. *)
Definition empties_place (b : builder) (p c : nat) : Prop :=
  forall a, in_arc b p c = Some a -> (init_at b p < arc_weight a)%N /\
    forall u o, In u (bp_prod (pl_of b p)) -> out_arc b u p = Some o -> (arc_weight o mod arc_weight a = 0)%N.
(** One firing of [c] does so. *)
Definition in_one_firing (b : builder) (p c : nat) : Prop :=
  forall a u o, in_arc b p c = Some a -> In u (bp_prod (pl_of b p)) -> out_arc b u p = Some o -> arc_weight o = arc_weight a.
(** A consumer that may be fired several times in a row is the only one, and the query does not
    speak of the places where it puts tokens; the vector of transitions does not move in memory while
    it is handled, or there is one producer. *)
Definition s_fair (inq : nat -> bool) (moves : nat -> bool) (b : builder) (p : nat) : Prop :=
  (exists c, bp_cons (pl_of b p) = [c] /\ (forall o, In o (bt_post (tr_of b c)) -> inq (arc_place o) = false) /\
     ((forall n, moves n = false) \/ length (bp_prod (pl_of b p)) <= 1)) \/
  (forall c, In c (bp_cons (pl_of b p)) -> empties_place b p c -> in_one_firing b p c).
