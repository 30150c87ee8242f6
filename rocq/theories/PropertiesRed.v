(** C22: structural reductions.  Each theorem is about one candidate of one rule (a transition or a
    place), for every builder whose vectors are consistent, every set of protected places and every
    candidate: the rule ends normally or would overflow a 32-bit number, the builder stays
    consistent, and a property of the protected places holds in some reachable marking before
    exactly when it does after. *)
From Verif Require Import Base NetSpec BuilderModel RedSpec RedModel RedModelH RedCand RedRules RedRuleJ RedOps RedRuleA RedRuleFNO RedRuleE RedRuleD RedRuleC RedRuleI RedRuleH RedMain RedExamples.

(** Rule A: a transition whose only input place feeds nothing else is merged into the producers. *)
Theorem C22_rule_a : forall inq b t, good b -> sound_result inq b (rule_a inq b t).
Proof. exact rule_a_ok. Qed.
Print Assumptions C22_rule_a.

(** Rule F: a place that always has enough tokens is removed. *)
Theorem C22_rule_f : forall inq b p, good b -> sound_result inq b (rule_f inq b p).
Proof. exact rule_f_ok. Qed.
Print Assumptions C22_rule_f.

(** Rules F, N and O: redundant arcs, transitions that are always inhibited, redundant places. *)
Theorem C22_rule_fno : forall inq b p, good b -> sound_result inq b (rule_fno inq b p).
Proof. exact rule_fno_ok. Qed.
Print Assumptions C22_rule_fno.

(** Rule G: transitions that only loop or consume. *)
Theorem C22_rule_g : forall inq loops consumers b t, good b -> t < length (b_trans b) -> sound_result inq b (rule_g inq loops consumers b t).
Proof. exact rule_g_ok. Qed.
Print Assumptions C22_rule_g.

(** Rule J: division of the weights at a place, when no weight is 2^32-1. *)
Theorem C22_rule_j : forall inq b p, good b -> small_weights b -> sound_result inq b (rule_j inq b p).
Proof. exact rule_j_ok. Qed.
Print Assumptions C22_rule_j.

(** Rule L: a transition that another one dominates. *)
Theorem C22_rule_l : forall inq b t1 t2, good b -> t1 < length (b_trans b) -> t2 < length (b_trans b) -> sound_result inq b (rule_l b t1 t2).
Proof. exact rule_l_ok. Qed.
Print Assumptions C22_rule_l.

(** Rule Q: firing a transition in the initial marking. *)
Theorem C22_rule_q : forall inq b t, good b -> sound_result inq b (rule_q inq b t).
Proof. exact rule_q_ok. Qed.
Print Assumptions C22_rule_q.

(** Rules E, F, M, N, O and P in one fixed point: transitions that can never fire, places that
    never change, and arcs that never matter. *)
Theorem C22_rule_efmnop : forall inq b, good b -> sound_result inq b (rule_efmnop inq b).
Proof. exact rule_efmnop_ok. Qed.
Print Assumptions C22_rule_efmnop.

(** Rule D: a transition whose effect a multiple of another one covers, when no product of two
    weights wraps and, if a larger effect is accepted, no place has inhibitor arcs. *)
Theorem C22_rule_d : forall inq reach loops b p t1 t2, good b -> weights16 b -> (loops = true -> no_inhibitors b) ->
  sound_result inq b (rule_d inq reach loops b p t1 t2).
Proof. exact rule_d_ok. Qed.
Print Assumptions C22_rule_d.

(** Rule D for transitions without arcs. *)
Theorem C22_rule_d0 : forall inq b t1 t2, good b -> sound_result inq b (rule_d0 b t1 t2).
Proof. exact rule_d0_ok. Qed.
Print Assumptions C22_rule_d0.

(** Rule C: a place that always has a multiple of the tokens of another place, when that other
    place has no inhibitor arcs. *)
Theorem C22_rule_c : forall inq b p1 p2, good b -> bp_inhib (pl_of b p1) = false -> sound_result inq b (rule_c inq b p1 p2).
Proof. exact rule_c_ok. Qed.
Print Assumptions C22_rule_c.

(** Rule M: places that never change and transitions that never fire. *)
Theorem C22_rule_m : forall inq b, good b -> sound_result inq b (rule_m inq b).
Proof. exact rule_m_ok. Qed.
Print Assumptions C22_rule_m.

(** Rule I: places and transitions that are irrelevant to the protected places, when no
    transition that refills an inhibitor place takes more from it than it puts back. *)
Theorem C22_rule_i : forall inq consumers b, good b -> loops_grow b -> sound_result inq b (rule_i inq consumers b).
Proof. exact rule_i_ok. Qed.
Print Assumptions C22_rule_i.

(** Rule H: the places on a loop of simple transitions are merged. *)
Theorem C22_rule_h : forall inq all_ltl b t, good b -> sound_result inq b (rule_h inq all_ltl b t).
Proof. exact rule_h_ok. Qed.
Print Assumptions C22_rule_h.

(** Any sequence of these rules, at any candidates and in any order, stopped anywhere. *)
Theorem C22_sequence : forall inq b b', good b -> reduced inq b b' -> good b' /\ same_views inq b b'.
Proof. exact reduced_ok. Qed.
Print Assumptions C22_sequence.

(** Finding: when every consumer of an unprotected place is disabled initially, rules E and P
    remove the place but not the consumers, which become enabled. *)
Theorem C22_rule_ep_refuted : exists inq b p b', good b /\ rule_ep inq b p = Ok b' /\ ~ same_views inq b b'.
Proof. exact ep_refuted. Qed.
Print Assumptions C22_rule_ep_refuted.

(** Finding: rule J uses the weight 2^32-1 as a mark and then divides by a number that does not
    divide all weights. *)
Theorem C22_rule_j_refuted : exists inq b p b', good b /\ rule_j inq b p = Ok b' /\ ~ same_views inq b b'.
Proof. exact j_refuted. Qed.
Print Assumptions C22_rule_j_refuted.

(** Finding: rule D accepts a larger effect without asking whether a larger marking disables
    other transitions. *)
Theorem C22_rule_d_refuted : exists inq b p t1 t2 b', good b /\ weights16 b /\ rule_d inq true true b p t1 t2 = Ok b' /\ ~ same_views inq b b'.
Proof. exact d_refuted. Qed.
Print Assumptions C22_rule_d_refuted.

(** Finding: the products of weights that rule D compares wrap. *)
Theorem C22_rule_d_wrap_refuted : exists inq b p t1 t2 b', good b /\ no_inhibitors b /\ rule_d inq true true b p t1 t2 = Ok b' /\ ~ same_views inq b b'.
Proof. exact d_wrap_refuted. Qed.
Print Assumptions C22_rule_d_wrap_refuted.

(** Finding: rule C takes an inhibitor arc from the first place for an arc that needs tokens. *)
Theorem C22_rule_c_refuted : exists inq b p1 p2 b', good b /\ rule_c inq b p1 p2 = Ok b' /\ ~ same_views inq b b'.
Proof. exact c_refuted. Qed.
Print Assumptions C22_rule_c_refuted.

(** Finding: rule I leaves out a transition that takes tokens from an inhibitor place because it
    alone cannot stop the inhibition; together with another one it can. *)
Theorem C22_rule_i_refuted : exists inq consumers b b', good b /\ rule_i inq consumers b = Ok b' /\ ~ same_views inq b b'.
Proof. exact i_refuted. Qed.
Print Assumptions C22_rule_i_refuted.
