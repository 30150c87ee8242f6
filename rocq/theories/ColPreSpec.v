(** Specification of the preemptive firing of transitions in coloured nets (C48). *)
From Verif Require Import Base ColSyntax ColSpec ColModel ColRedModel ColRedSpec.
Set Implicit Arguments.

(** The transition can fire in the marking. *)
Definition fireable (r : rnet) (M : cmark) (t : nat) : Prop := exists M', rstep r M t M'.
(** A query cannot tell the markings apart: the same tokens on its places, and the same
    transitions of the query can fire. *)
Definition same_view (used_t used_p : nat -> bool) (r r' : rnet) (M M' : cmark) : Prop :=
  (forall p v, used_p p = true -> M' p v = M p v) /\ forall t, used_t t = true -> (fireable r M t <-> fireable r' M' t).
(** Whatever the query asks about a reachable marking has the same answer in both nets. *)
Definition same_answers (used_t used_p : nat -> bool) (r r' : rnet) : Prop :=
  (forall M, rreach r M -> exists M', rreach r' M' /\ same_view used_t used_p r r' M M') /\
  (forall M', rreach r' M' -> exists M, rreach r M /\ same_view used_t used_p r r' M M').
(** A transition outside the query, without a guard, whose only arc comes from a place outside
    the query takes one token of any colour from it and puts none back. *)
Definition moves_any (used_t used_p : nat -> bool) (n : cpn) : Prop :=
  forall t tr p i, nth_error (cn_trs n) t = Some tr -> ct_guard tr = None -> ct_in tr = [(p, i)] -> used_t t = false -> used_p p = false ->
    (exists x, i = ANum [EVar x] 1) /\ ~ In p (map fst (ct_out tr)).
