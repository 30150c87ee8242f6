(** C37: the explicit engine for coloured nets. *)
From Verif Require Import Base ColSyntax ColSpec ColModel ExpSyntax ExpSpec ExpModel ExpShow ExpMain ExpExamples.

(** When the engine explored the whole state space, or found a marking that decides the
    query, its answer is the truth about the coloured net: for every order of the waiting
    states and both ways to go through the successors. *)
Theorem C37_fixed_answers_partial : forall n, cpn_ok n -> exp_ok n -> forall net, build n = Ok net ->
  forall pick qt q fuel r, query_ok q -> search net (fixed_gen net) (0, 0) pick qt q fuel = Ok r ->
  (sr_full r = true \/ sr_id r <> None) -> (sr_answer r = true <-> holds n qt q).
Proof. exact fixed_answers. Qed.
Print Assumptions C37_fixed_answers_partial.

Theorem C37_even_answers_partial : forall n, cpn_ok n -> exp_ok n -> forall net, build n = Ok net ->
  forall strict pick qt q fuel r, query_ok q -> search net (even_gen net strict) (even0 net) pick qt q fuel = Ok r ->
  (sr_full r = true \/ sr_id r <> None) -> (sr_answer r = true <-> holds n qt q).
Proof. exact even_answers. Qed.
Print Assumptions C37_even_answers_partial.

(** When a deciding marking was found, a trace is produced: every step of it is an enabled
    transition with the binding printed, the markings printed are those reached, and the
    last one decides the query. *)
Theorem C37_fixed_traces_partial : forall n, cpn_ok n -> exp_ok n -> forall net, build n = Ok net ->
  forall pick qt q fuel r id, query_ok q -> search net (fixed_gen net) (0, 0) pick qt q fuel = Ok r -> sr_id r = Some id ->
  exists l steps M, trace_to (S id) (sr_map r) id [] = Ok (Some l) /\ replay net (kn_init net) l = Ok steps /\
    map (fun x => fst (fst x)) steps = map fst l /\ follows n (cinit n) (shown steps) M /\ decides n qt q M.
Proof. exact fixed_traces. Qed.
Print Assumptions C37_fixed_traces_partial.

Theorem C37_even_traces_partial : forall n, cpn_ok n -> exp_ok n -> forall net, build n = Ok net ->
  forall strict pick qt q fuel r id, query_ok q -> search net (even_gen net strict) (even0 net) pick qt q fuel = Ok r -> sr_id r = Some id ->
  exists l steps M, trace_to (S id) (sr_map r) id [] = Ok (Some l) /\ replay net (kn_init net) l = Ok steps /\
    map (fun x => fst (fst x)) steps = map fst l /\ follows n (cinit n) (shown steps) M /\ decides n qt q M.
Proof. exact even_traces. Qed.
Print Assumptions C37_even_traces_partial.

Example C37_case : exists net r1 r2 r3 r4, cpn_ok en /\ exp_ok en /\ build en = Ok net /\ query_ok en_q /\ query_ok en_inv /\
  search net (fixed_gen net) (0, 0) (fun f => f) QEF en_q (30 * 100) = Ok r1 /\ sr_answer r1 = true /\ sr_id r1 = Some 23 /\
  search net (fixed_gen net) (0, 0) (fun _ => 0) QAG en_inv (30 * 100) = Ok r2 /\ sr_answer r2 = true /\ sr_full r2 = true /\
  search net (even_gen net false) (even0 net) (fun f => f) QEF en_q (30 * 100) = Ok r3 /\ sr_answer r3 = true /\ sr_id r3 = Some 13 /\
  search net (even_gen net false) (even0 net) (fun f => f) QAG en_inv (30 * 100) = Ok r4 /\ sr_answer r4 = true /\ sr_full r4 = true.
Proof. exact en_case. Qed.

(** The default way to go through the successors reads past the end of the transitions. *)
Theorem C37_even_in_bounds_refuted : exists n net pick qt q fuel, cpn_ok n /\ exp_ok n /\ query_ok q /\ build n = Ok net /\
  search net (even_gen net true) (even0 net) pick qt q fuel = UB.
Proof. exact even_bounds. Qed.
Print Assumptions C37_even_in_bounds_refuted.

(** When a marking takes more than 65535 bytes, no answer "false" can be relied on. *)
Theorem C37_answers_not_full_refuted : exists n net pick qt q fuel r, cpn_ok n /\ exp_ok n /\ query_ok q /\ build n = Ok net /\
  search net (fixed_gen net) (0, 0) pick qt q fuel = Ok r /\ sr_answer r = false /\ holds n qt q.
Proof. exact not_full. Qed.
Print Assumptions C37_answers_not_full_refuted.

(** Without [exp_ok] answers are wrong: a tuple of constants of types of different sizes, *)
Theorem C37_constant_tuples_refuted : exists n net pick qt q fuel r, cpn_ok n /\ query_ok q /\ build n = Ok net /\
  search net (fixed_gen net) (0, 0) pick qt q fuel = Ok r /\ sr_full r = true /\ sr_answer r = false /\ holds n qt q.
Proof. exact const_tuple. Qed.
Print Assumptions C37_constant_tuples_refuted.

(** a subtraction of a colour that is not there, *)
Theorem C37_subtractions_refuted : exists n net pick qt q fuel r, cpn_ok n /\ query_ok q /\ build n = Ok net /\
  search net (fixed_gen net) (0, 0) pick qt q fuel = Ok r /\ sr_full r = true /\ sr_answer r = false /\ holds n qt q.
Proof. exact subtract. Qed.
Print Assumptions C37_subtractions_refuted.

(** two input arcs from one place. *)
Theorem C37_parallel_arcs_refuted : exists n net pick qt q fuel r, cpn_ok n /\ query_ok q /\ build n = Ok net /\
  search net (fixed_gen net) (0, 0) pick qt q fuel = Ok r /\ sr_full r = true /\ sr_answer r = true /\ ~ holds n qt q.
Proof. exact same_place. Qed.
Print Assumptions C37_parallel_arcs_refuted.

(** Negative numbers in the query are read as large ones. *)
Theorem C37_negative_numbers_refuted : exists n net pick qt q fuel r, cpn_ok n /\ exp_ok n /\ build n = Ok net /\
  search net (fixed_gen net) (0, 0) pick qt q fuel = Ok r /\ sr_full r = true /\ sr_answer r = true /\ ~ holds n qt q.
Proof. exact negative_number. Qed.
Print Assumptions C37_negative_numbers_refuted.
