(** C22: structural reductions that make new transitions.  [sk] is the list of identifiers that may
    be used again. *)
From Verif Require Import Base NetSpec BuilderModel RedSpec RedModel RedModelR RedCand RedRuleR RedExamples RedExamplesR.

(** Rule R: each producer of a place is fused with every consumer, when the producers have no
    inhibitor arcs.  The work list of the rule is finite: with enough fuel the rule ends. *)
Theorem C22_rule_r : forall inq limit b sk p, good b -> free b sk -> (forall u, In u (bp_prod (pl_of b p)) -> bt_inhib (tr_of b u) = false) ->
  exists n, forall fuel, n <= fuel -> sound_new inq b (rule_r inq fuel limit b sk p).
Proof. exact rule_r_ok. Qed.
Print Assumptions C22_rule_r.

(** Finding: the transitions made by rule R for a producer with inhibitor arcs do not have the
    inhibitor flag; rule D then takes the inhibitor arc for an ordinary one. *)
Theorem C22_rule_r_refuted : exists inq b p b1 sk1 p1 t1 t2 b2, good b /\ free b [] /\ rule_r inq 100 6 b [] p = Ok (b1, sk1) /\ ~ good b1 /\ weights16 b1 /\
  rule_d inq true false b1 p1 t1 t2 = Ok b2 /\ ~ same_views inq b b2.
Proof. exact r_refuted. Qed.
Print Assumptions C22_rule_r_refuted.
