(** C22: structural reduction rule B. *)
From Verif Require Import Base NetSpec BuilderModel RedSpec RedModel RedModelB RedCand RedRuleB RedMain RedExamplesB.

(** Rule B: the only consumer of a place is merged into the producers of the place, when the
    portions fit ([b_fair]). *)
Theorem C22_rule_b : forall inq deadlocks consumers b p, good b -> b_fair b p -> sound_result inq b (rule_b inq deadlocks consumers b p).
Proof. exact rule_b_ok. Qed.
Print Assumptions C22_rule_b.

(** Finding: rule B empties the place even if its initial tokens are not whole portions, and one
    producer may put less than a portion. *)
Theorem C22_rule_b_rest_refuted : exists inq b p b', good b /\ no_inhibitors b /\ rule_b inq false false b p = Ok b' /\ ~ same_views inq b b'.
Proof. exact b_rest_refuted. Qed.
Print Assumptions C22_rule_b_rest_refuted.

(** Finding: a producer of several portions is made to wait until the consumer can take all. *)
Theorem C22_rule_b_mult_refuted : exists inq b p b', good b /\ no_inhibitors b /\ init_at b p = 0%N /\ rule_b inq true true b p = Ok b' /\ ~ same_views inq b b'.
Proof. exact b_mult_refuted. Qed.
Print Assumptions C22_rule_b_mult_refuted.

(** Finding: a producer is made to wait although its input places inhibit other transitions. *)
Theorem C22_rule_b_inhibitor_refuted : exists inq b p b', good b /\ all_weights (fun w => w =? 1)%N b = true /\ rule_b inq true true b p = Ok b' /\ ~ same_views inq b b'.
Proof. exact b_inh_refuted. Qed.
Print Assumptions C22_rule_b_inhibitor_refuted.
