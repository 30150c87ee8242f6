(** C22: structural reduction rules S and T.  [sk] is the list of identifiers that may be used again. *)
From Verif Require Import Base NetSpec BuilderModel RedSpec RedModel RedModelS RedSpecS RedCand RedMain RedRuleS RedExamplesS.

(** Rules S and T: each consumer of a place is replaced by its fusions with the producers, for
    every setting of the reducer, when the consumers are fired once per producer, or the only
    consumer puts its tokens where the query does not look ([s_fair]). *)
Theorem C22_rule_s : forall inq remove_loops all_reach moves p b sk, good b -> free b sk -> s_fair inq moves b p ->
  sound_new inq b (rule_s inq remove_loops all_reach moves b sk p).
Proof. exact rule_s_ok. Qed.
Print Assumptions C22_rule_s.

(** Finding: a consumer that is fired several times in a row may put its tokens on a place of the
    query (the test of line 2692 is never made): markings in between are lost. *)
Theorem C22_rule_s_query_refuted : exists inq b p b' sk', good b /\ no_inhibitors b /\ rule_s inq true true still b [] p = Ok (b', sk') /\ ~ same_views inq b b'.
Proof. exact s_query_refuted. Qed.
Print Assumptions C22_rule_s_query_refuted.

(** Finding: several consumers cannot share the tokens of one firing of a producer any longer, even
    if the query looks at none of their places. *)
Theorem C22_rule_s_share_refuted : exists inq b p b' sk', good b /\ no_inhibitors b /\ (forall c o, In c (bp_cons (pl_of b p)) -> In o (bt_post (tr_of b c)) -> inq (arc_place o) = false) /\
  rule_s inq true true still b [] p = Ok (b', sk') /\ ~ same_views inq b b'.
Proof. exact s_share_refuted. Qed.
Print Assumptions C22_rule_s_share_refuted.

(** Finding: the reference to the consumer (line 2683) is read after transitions were added (line
    2707). *)
Theorem C22_rule_s_moved_refuted : exists inq moves b p, good b /\ no_inhibitors b /\ rule_s inq true true moves b [] p = UB.
Proof. exact s_moved_refuted. Qed.
Print Assumptions C22_rule_s_moved_refuted.
