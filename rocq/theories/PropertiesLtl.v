(** C33: the linear-time model checkers. *)
From Verif Require Import Base NetSpec NetModel NetProofs PqlSyntax PqlSpec LtlSpec LtlModel SearchModel SearchExamples LtlMain LtlIds LtlIdsProofs
  PqlModel PqlProofs LtlQuerySpec LtlQueryModel LtlQueryProofs LtlQueryExamples.

(** C33.  The nested depth-first search, for every net, automaton, order of successors (also one
    that changes from call to call), token bound and weak flag: when it answers "violated" the
    automaton accepts a run of the net; when it answers "holds" it accepts no run within the
    bound. *)
Theorem C33_ndfs : forall net m0 aut order kbound fuel weak,
  wf_pnet net -> enumerates net m0 order ->
  answer_right net m0 aut kbound (ndfs_check aut order kbound fuel weak m0).
Proof. exact ndfs_right. Qed.
Print Assumptions C33_ndfs.

(** C33.  The same for Tarjan's algorithm, for every hash function of its chains. *)
Theorem C33_tarjan : forall net m0 aut order kbound hash fuel,
  wf_pnet net -> enumerates net m0 order ->
  answer_right net m0 aut kbound (tarjan_check aut order kbound hash fuel m0).
Proof. exact tarjan_right. Qed.
Print Assumptions C33_tarjan.

(** The generator of C01 is such an order while token counts fit in 32 bits. *)
Theorem C33_generator : forall net m0, layout net ->
  (forall m, reachable (to_pnet net) m0 m -> length m = cn_places net /\ fits32 m) ->
  enumerates (to_pnet net) m0 (fun _ m _ => net_stream net m).
Proof. exact stream_enumerates. Qed.
Print Assumptions C33_generator.

Example C33_case : wf_pnet (to_pnet sx_net) /\ enumerates (to_pnet sx_net) (cn_init sx_net) (fun _ m _ => net_stream sx_net m) /\
  ndfs_check aut_fg (fun _ m _ => net_stream sx_net m) 0 50 true (cn_init sx_net) = Ok true /\
  ndfs_check aut_gf (fun _ m _ => net_stream sx_net m) 0 50 false (cn_init sx_net) = Ok false /\
  tarjan_check aut_fg (fun _ m _ => net_stream sx_net m) 0 (fun _ => 7) 50 (cn_init sx_net) = Ok true /\
  tarjan_check aut_gf (fun _ m _ => net_stream sx_net m) 0 snd 50 (cn_init sx_net) = Ok false.
Proof.
  split; [exact (ly_wf sx_layout)|]. split; [exact (stream_enumerates sx_net (cn_init sx_net) sx_layout sx_reach_ok)|].
  repeat split; vm_compute; reflexivity.
Qed.

(** C33.  The numbers by which the searches store pairs of a marking and an automaton state can be
    read back, for up to 2^44 markings and 2^20 automaton states ... *)
Theorem C33_ids : forall m b, (m < 2 ^ 44)%N -> (b < 2 ^ 20)%N ->
  get_marking_id (get_product_id m b) = m /\ get_buchi_state (get_product_id m b) = b.
Proof. exact ids_read_back. Qed.
Print Assumptions C33_ids.
Theorem C33_ids_distinct : forall m b m' b', (m < 2 ^ 44)%N -> (m' < 2 ^ 44)%N -> (b < 2 ^ 20)%N -> (b' < 2 ^ 20)%N ->
  get_product_id m b = get_product_id m' b' -> m = m' /\ b = b'.
Proof. exact ids_injective. Qed.
Print Assumptions C33_ids_distinct.
Example C33_ids_case : (get_product_id 7 3 = 7 * 2 ^ 20 + 3 /\ 7 < 2 ^ 44 /\ 3 < 2 ^ 20)%N.
Proof. repeat split; reflexivity. Qed.
(** ... but with more automaton states two of them get the same number. *)
Theorem C33_ids_refuted : exists b b', b <> b' /\ get_product_id 0 b = get_product_id 0 b'.
Proof. exact ids_collide. Qed.
Print Assumptions C33_ids_refuted.

(** C33.  From a query to its answer: for every query A f or E f of linear time (or AG, EF, AU, ...
    over path formulas), every naming of propositions and both ways to treat propositional
    operands, if the library translates the formula right, all reachable markings fit in 32 bits and
    the bound, and the search answers right, then the answer is whether the query is satisfied. *)
Theorem C33_query : forall net deadb comp big expand tr m0 kbound search q r,
  wf_pnet net ->
  (forall m, reachable net m0 m -> fits m /\ within kbound m /\ (deadb m = true <-> dead net m)) ->
  ltl_query q = true ->
  translates tr (SNot (fst (to_spot comp big expand (fst (to_ltl q)) []))) ->
  (forall aut, answer_right net m0 aut kbound (search aut)) ->
  ltl_solve comp big expand tr deadb search q = Ok r -> (r = true <-> sat net m0 q).
Proof. exact ltl_solve_checked. Qed.
Print Assumptions C33_query.
(** The searches answer right, so with them: *)
Theorem C33_query_ndfs : forall net deadb comp big expand tr m0 kbound order fuel weak q r,
  wf_pnet net -> enumerates net m0 order ->
  (forall m, reachable net m0 m -> fits m /\ within kbound m /\ (deadb m = true <-> dead net m)) ->
  ltl_query q = true ->
  translates tr (SNot (fst (to_spot comp big expand (fst (to_ltl q)) []))) ->
  ltl_solve comp big expand tr deadb (fun aut => ndfs_check aut order kbound fuel weak m0) q = Ok r ->
  (r = true <-> sat net m0 q).
Proof. exact query_ndfs. Qed.
Print Assumptions C33_query_ndfs.
Theorem C33_query_tarjan : forall net deadb comp big expand tr m0 kbound order hash fuel q r,
  wf_pnet net -> enumerates net m0 order ->
  (forall m, reachable net m0 m -> fits m /\ within kbound m /\ (deadb m = true <-> dead net m)) ->
  ltl_query q = true ->
  translates tr (SNot (fst (to_spot comp big expand (fst (to_ltl q)) []))) ->
  ltl_solve comp big expand tr deadb (fun aut => tarjan_check aut order kbound hash fuel m0) q = Ok r ->
  (r = true <-> sat net m0 q).
Proof. exact query_tarjan. Qed.
Print Assumptions C33_query_tarjan.
(** No such query is refused. *)
Theorem C33_query_accepted : forall q, ltl_query q = true -> is_ltl q = true.
Proof. exact ltl_query_accepted. Qed.
Print Assumptions C33_query_accepted.
Example C33_query_case :
  (forall m, reachable (to_pnet sx_net) (cn_init sx_net) m -> fits m /\ within 0 m /\ (sx_deadb m = true <-> dead (to_pnet sx_net) m)) /\
  ltl_query gf_query = true /\
  translates (fun _ => fg_not) (SNot (fst (to_spot CompFull (fun _ => false) true (fst (to_ltl gf_query)) []))) /\
  ltl_solve CompFull (fun _ => false) true (fun _ => fg_not) sx_deadb (fun aut => ndfs_check aut (fun _ m _ => net_stream sx_net m) 0 50 true (cn_init sx_net)) gf_query = Ok true /\
  ltl_solve CompFull (fun _ => false) true (fun _ => fg_not) sx_deadb (fun aut => tarjan_check aut (fun _ m _ => net_stream sx_net m) 0 snd 50 (cn_init sx_net)) gf_query = Ok true.
Proof. split; [exact sx_query_reach|]. split; [reflexivity|]. split; [exact gf_translates|]. split; vm_compute; reflexivity. Qed.

(** C33 is false of queries the validator lets through with a quantifier in the right operand of an
    until: the quantifier is dropped. *)
Theorem C33_nested_refuted : exists net q tr order r,
  layout net /\ enumerates (to_pnet net) (cn_init net) order /\
  is_ltl q = true /\ translates tr (SNot (fst (to_spot CompFull (fun _ => false) true (fst (to_ltl q)) []))) /\
  ltl_solve CompFull (fun _ => false) true tr (fun m => match net_stream net m with ([], _) => true | _ => false end)
    (fun aut => ndfs_check aut order 0 50 false (cn_init net)) q = Ok r /\
  r = false /\ sat (to_pnet net) (cn_init net) q.
Proof. exact nested_wrong. Qed.
Print Assumptions C33_nested_refuted.

(** C33.  Simplification of queries A f and E f by way of the library keeps their meaning, for every
    simplifier that keeps the words of a formula, and every rewriting that keeps its meaning. *)
Theorem C33_simplify : forall net eqc comp big small simp m0 rw1 rw2 q q',
  wf_pnet net -> (forall a b, eqc a b = true <-> a = b) -> simplifies simp ->
  keeps net m0 rw1 -> keeps net m0 rw2 ->
  (exists c, (q = CA c \/ q = CE c) /\ ltl c = true) ->
  simplify_ltl_query eqc comp big small simp rw1 rw2 q = Ok q' ->
  (sat net m0 q' <-> sat net m0 q) /\ (ltl_query q' = true \/ exists b, q' = CBool b).
Proof. exact simplify_query_checked. Qed.
Print Assumptions C33_simplify.
(** One call of the library never fails and keeps the meaning of a path formula. *)
Theorem C33_simplify_call : forall net eqc comp big small simp c,
  (forall a b, eqc a b = true <-> a = b) -> simplifies simp -> ltl c = true ->
  exists c', spot_simplify eqc comp big small simp c = Ok c' /\ ltl c' = true /\ forall pi, holds net pi c' <-> holds net pi c.
Proof. exact simplify_call_checked. Qed.
Print Assumptions C33_simplify_call.
Example C33_simplify_case : simplifies (fun f => f) /\ keeps (to_pnet sx_net) (cn_init sx_net) (fun c => Ok c) /\
  (forall eqc, simplify_ltl_query eqc CompFull (fun _ => false) (fun _ => false) (fun f => f) (fun c => Ok c) (fun c => Ok c)
     (CE (CAnd [CDead; CF crit_ge1; crit_ge1])) = Ok (CE (CAnd [CF crit_ge1; CAnd [CAnd [CDead; crit_ge1]]]))).
Proof. split; [exact id_simplifies|]. split; [exact (id_keeps _ _)|]. intros eqc. reflexivity. Qed.
(** C33 is false of queries E F f given as one operator: they are simplified to A F f. *)
Theorem C33_simplify_refuted : forall eqc, exists net q q',
  layout net /\ is_ltl q = true /\ ltl_query q = true /\
  simplify_ltl_query eqc CompFull (fun _ => false) (fun _ => true) (fun f => f) (fun c => Ok c) (fun c => Ok c) q = Ok q' /\
  sat (to_pnet net) (cn_init net) q /\ ~ sat (to_pnet net) (cn_init net) q'.
Proof. exact simplify_ef_wrong. Qed.
Print Assumptions C33_simplify_refuted.
