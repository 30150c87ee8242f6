(** Sequences of candidates that include the rules that make new transitions (RedCand.v has the
    others).  The state is the builder and the vector [_skippedTransitions] of identifiers that
    rules R, S and T use again; the rules of RedCand.v only add to it, in an order that does not
    matter: after them it is any vector of identifiers of removed transitions. *)
From Verif Require Import Base NetSpec NetModel BuilderModel RedModel RedModelR RedModelS RedSpec RedSpecS RedCand.
Set Implicit Arguments.

(** Reducer.cpp:2840-3013 *)
Inductive reduced_all (inq : nat -> bool) : builder * list nat -> builder * list nat -> Prop :=
| ra_nil : forall s, reduced_all inq s s
| ra_old : forall b sk c b1 sk1 s, fair b c -> try_rule inq b c = Ok b1 -> free b1 sk1 -> reduced_all inq (b1, sk1) s -> reduced_all inq (b, sk) s
| ra_r : forall b sk fuel limit p s1 s, (forall u, In u (bp_prod (pl_of b p)) -> bt_inhib (tr_of b u) = false) ->
    rule_r inq fuel limit b sk p = Ok s1 -> reduced_all inq s1 s -> reduced_all inq (b, sk) s
| ra_s : forall b sk remove_loops all_reach moves p s1 s, s_fair inq moves b p ->
    rule_s inq remove_loops all_reach moves b sk p = Ok s1 -> reduced_all inq s1 s -> reduced_all inq (b, sk) s.
