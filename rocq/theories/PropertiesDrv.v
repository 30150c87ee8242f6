(** C42: the verdicts of the tool are right, given once, and complete. *)
From Verif Require Import Base NetSpec NetModel PqlSyntax PqlSpec PqlModel PqlProofs QuerySpec QueryModel QueryClass SearchModel SearchMain QueueModel StubModel StubSearch
  LtlSpec LtlModel LtlMain LtlQuerySpec LtlQueryModel LtlQueryProofs LtlQueryExamples CtlNet CtlFrag CtlMain CmpModel CmpSpec CmpFrag CmpExamples SearchExamples SynSpec SynModel SynExamples QueueModel
  DrvModel DrvSpec DrvProofs DrvMain DrvSearch DrvTool DrvExamples.

(** Whatever the parts are, if they do what they should: every verdict is right, *)
Theorem C42_verdicts_right : forall o simplify reduce ctl ltl synth siphon search tar net qs,
  start_ok net -> parts_right o simplify reduce ctl ltl synth search tar net qs ->
  verdicts_right net qs (fst (driver o simplify reduce ctl ltl synth siphon search tar net qs)).
Proof. intros o simplify reduce ctl ltl synth siphon search tar net qs HS HP. exact (proj1 (driver_good o simplify reduce ctl ltl synth siphon search tar net qs HS HP)). Qed.
Print Assumptions C42_verdicts_right.
(** no query gets two, *)
Theorem C42_at_most_once : forall o simplify reduce ctl ltl synth siphon search tar net qs,
  start_ok net -> parts_right o simplify reduce ctl ltl synth search tar net qs ->
  NoDup (verdicts (fst (driver o simplify reduce ctl ltl synth siphon search tar net qs))).
Proof. intros o simplify reduce ctl ltl synth siphon search tar net qs HS HP. exact (proj1 (proj2 (driver_good o simplify reduce ctl ltl synth siphon search tar net qs HS HP))). Qed.
Print Assumptions C42_at_most_once.
(** and every query gets one, if the run ends without an error, verification is on, and there is
    no control query beside another query. *)
Theorem C42_all_answered : forall o simplify reduce ctl ltl synth siphon search tar net qs,
  start_ok net -> parts_right o simplify reduce ctl ltl synth search tar net qs ->
  let d := driver o simplify reduce ctl ltl synth siphon search tar net qs in
  snd d = Ok tt -> o_verify o = true -> o_approx o = false -> (o_ltl o = true -> o_ltlalg o = true) ->
  (forall q, In q (rewritten simplify net qs) -> is_control q = false) \/ length qs = 1 ->
  forall i, i < length qs -> In i (verdicts (fst d)).
Proof.
  intros o simplify reduce ctl ltl synth siphon search tar net qs HS HP d E V A L C i Hi.
  exact (proj2 (proj2 (proj2 (driver_good o simplify reduce ctl ltl synth siphon search tar net qs HS HP))) E i (conj Hi (conj V (conj A (conj L C))))).
Qed.
Print Assumptions C42_all_answered.
(** Finding: a control query after another control query, or after a CTL query, is dropped. *)
Theorem C42_all_answered_refuted : forall c, c = dx_control \/ c = QPlain cp_query ->
  exists o simplify reduce ctl ltl synth siphon search tar net qs,
  start_ok net /\ parts_right o simplify reduce ctl ltl synth search tar net qs /\
  qs = [c; dx_control] /\ o_verify o = true /\ o_approx o = false /\ o_ltl o = false /\
  let d := driver o simplify reduce ctl ltl synth siphon search tar net qs in
  snd d = Ok tt /\ verdicts (fst d) = [0].
Proof. exact dx_dropped. Qed.
Print Assumptions C42_all_answered_refuted.

(** The search of the tool reports each open goal once, right, and all of them if it ends. *)
Theorem C42_search : forall net st dist rnd fuel, searchable net 0 -> 0 < cn_places net -> strategy_ok st ->
  reach_right net (fun _ => True) (run_search st dist rnd fuel net).
Proof. intros net st dist rnd fuel HS Hp Hst. exact (run_search_right net HS Hp st Hst dist rnd fuel). Qed.
Print Assumptions C42_search.
(** The synthesis engine answers "control" queries right. *)
Theorem C42_synthesis : forall net pick fuel i c b, layout net -> 0 < cn_places net -> (N.of_nat (cn_ntrans net) < 2 ^ 32)%N ->
  StoreProofs.mark_ok (cn_places net) (cn_init net) -> no_overflow net ->
  (forall m, reachable (to_pnet net) (cn_init net) m -> ~ exists t, controllable net t = true /\ step (to_pnet net) m t m) ->
  run_synth pick fuel net i c = Ok b -> (b = true <-> controls net c).
Proof. intros net pick fuel i c b L Hp N1 Hi Hno Hf. exact (run_synth_right net L Hp N1 Hi Hno Hf pick fuel i c b). Qed.
Print Assumptions C42_synthesis.

(** End to end, with -q 0, -r 0 and -p: CTL and control queries, the initial marking, pushNegation,
    the search in any order, the CTL engine with any search orders, and the synthesis engine. *)
Theorem C42_tool : forall o net st qs fuel0 cst cdist crnd cfuel comp big expand tr check addr choice fuels direct reduce ltl pick sfuel siphon tar dist rnd fuel,
  searchable net 0 -> 0 < cn_places net -> no_overflow net -> strategy_ok st -> strategy_ok cst ->
  o_reduce o = false -> o_tar o = false -> o_ltl o = false ->
  (forall c, In (QPlain c) qs -> exists r, ctl c = true /\ in_range c = true /\ push (net_deadb net) (cn_init net) true fuel0 false false c = Ok r /\
     forall x, occurs x r -> ltl_shape x = true -> translates tr (SNot (fst (to_spot comp big expand (fst (to_ltl x)) [])))) ->
  ((exists c, In (QControl c) qs) -> (N.of_nat (cn_ntrans net) < 2 ^ 32)%N /\
    forall m, reachable (to_pnet net) (cn_init net) m -> ~ exists t, controllable net t = true /\ step (to_pnet net) m t m) ->
  (forall i pos aut, answer_right (to_pnet net) (cn_init net) aut 0 (check i pos aut)) ->
  let d := driver o (map (push_query net fuel0)) reduce
    (fun _ i q => ctl_main (fun pos goals handle => search_reach net 0 false false cst (cdist i pos) (crnd i pos) (cfuel i pos) goals handle)
       (fun pos x => ltl_solve comp big expand tr (net_deadb net) (check i pos) x)
       (fun pos x => ctl_single_solve net x (addr i pos) (choice i pos) (fuels i pos)) net direct q)
    ltl (run_synth pick sfuel) siphon (fun n => run_search st dist rnd fuel n) tar net qs in
  verdicts_right net qs (fst d) /\ NoDup (verdicts (fst d)) /\
  (snd d = Ok tt -> o_verify o = true -> o_approx o = false -> (forall q, In q qs -> is_control q = false) \/ length qs = 1 ->
   forall i, i < length qs -> In i (verdicts (fst d))).
Proof. exact tool_ok. Qed.
Print Assumptions C42_tool.
(** The hypotheses hold for a net with five queries for three parts of the tool; the verdicts, and
    those of runs with control queries. *)
Example C42_case : searchable sx_net 0 /\ 0 < cn_places sx_net /\ no_overflow sx_net /\
  (forall c, In (QPlain c) dx_queries -> exists r, ctl c = true /\ in_range c = true /\ push (net_deadb sx_net) (cn_init sx_net) true 30 false false c = Ok r /\
    forall x, occurs x r -> ltl_shape x = true -> translates (fun _ => g_not) (SNot (fst (to_spot CompFull (fun _ => false) true (fst (to_ltl x)) [])))) /\
  ((N.of_nat (cn_ntrans sx_net) < 2 ^ 32)%N /\ forall m, reachable (to_pnet sx_net) (cn_init sx_net) m -> ~ exists t, controllable sx_net t = true /\ step (to_pnet sx_net) m t m) /\
  (forall aut, answer_right (to_pnet sx_net) (cn_init sx_net) aut 0 (ndfs_check aut (fun _ m _ => net_stream sx_net m) 0 50 true (cn_init sx_net))) /\
  dx_run dx_queries = ([LFormula 4 true; LFormula 0 true; LFormula 1 true; LFormula 2 true; LFormula 3 false], Ok tt) /\
  dx_run [dx_control] = ([LFormula 0 false], Ok tt) /\
  dx_run [QPlain (CEF (cp_crit 1)); dx_control; dx_control] = ([LFormula 1 false; LFormula 2 false; LFormula 0 true], Ok tt).
Proof. exact dx_case. Qed.
Example C42_parts : start_ok sx_net /\ length dx_queries = 5 /\ parts_right dx_opts (map (push_query sx_net 30)) (fun _ _ => Throw) dx_ctl (fun _ _ _ => Throw) (run_synth (fun _ => fifo) 60)
    (fun n => run_search DFS (fun _ _ => 0%N) 0 50 n) (fun _ _ _ _ => ([], Throw)) sx_net dx_queries.
Proof. split; [exact dx_start|]. split; [reflexivity|]. apply dx_parts. auto. Qed.

(** The loop that rewrites the queries reaches all of them, if no place has more than 2^31 - 1 tokens
    or the simplification is off; *)
Theorem C42_rewriting : forall net fuel lp timeout l, (timeout = true -> forall p, (tokens (cn_init net) p < 2 ^ 31)%N) ->
  simplify_queries net fuel lp timeout l = map (fun q => (if timeout then lp else fun q => q) (push_query net fuel q)) l.
Proof. exact simplify_map. Qed.
Print Assumptions C42_rewriting.
(** Finding: otherwise only the first query is rewritten, and the CTL engine, which relies on it,
    answers a later one wrong: the same query twice gets both verdicts. *)
Theorem C42_verdicts_refuted : forall lp, exists net c, searchable net 0 /\ 0 < cn_places net /\ no_overflow net /\ ctl c = true /\ in_range c = true /\
  let d := driver dx_opts (simplify_queries net 30 lp (o_simplify dx_opts)) (fun _ _ => Throw)
    (fun _ i q => ctl_main (fun pos goals handle => search_reach net 0 false false DFS (fun _ _ => 0%N) 0 50 goals handle)
       (fun pos x => Throw) (fun pos x => ctl_single_solve net x (fun i => i) (fun n => n) 90) net false q)
    (fun _ _ _ => Throw) (run_synth (fun _ => fifo) 60) (fun _ _ => false) (fun n => run_search DFS (fun _ _ => 0%N) 0 50 n) (fun _ _ _ _ => ([], Throw)) net [QPlain c; QPlain c] in
  d = ([LFormula 0 true; LFormula 1 false], Ok tt) /\ sat (to_pnet net) (cn_init net) c.
Proof. exact bx_wrong. Qed.
Print Assumptions C42_verdicts_refuted.

(** With over-approximation only negative results of the search become verdicts, and these hold for
    the net that was over-approximated. *)
Theorem C42_over_approximation : forall net net' c g inv i r b, wf_pnet net -> is_reachability c = true -> prepare_for_reachability c = Ok (Some (g, inv)) ->
  forall m m', (attainable net m g -> attainable net' m' g) -> (r = NotSatisfied -> ~ attainable net' m' g) ->
  In (LFormula i b) (printed true false inv i r) -> (b = true <-> sat net m c).
Proof. exact approx_ok. Qed.
Print Assumptions C42_over_approximation.
Example C42_over_case : is_reachability (CAG (CNot (cp_crit 2))) = true /\
  (exists g, prepare_for_reachability (CAG (CNot (cp_crit 2))) = Ok (Some (g, true))) /\
  printed true false true 3 NotSatisfied = [LFormula 3 true] /\ printed true false true 3 Satisfied = [LMaybe 3].
Proof. split; [reflexivity|]. split; [eexists; reflexivity|]. split; reflexivity. Qed.

(** Finding: the siphon-trap analysis has no effect, whatever it answers: it is only asked for the
    bare deadlock proposition, which never reaches it. *)
Theorem C42_siphon_never_used : forall o simplify reduce ctl ltl synth s1 s2 search tar net qs,
  length (simplify (map (initial net) qs)) = length qs ->
  (forall net2 qs2, prepared o simplify reduce net qs = Ok (net2, qs2) -> length qs2 = length qs /\
     forall i q q', nth_error (rewritten simplify net qs) i = Some q -> nth_error qs2 i = Some q' -> is_open (nth i (outcomes o simplify net qs) OSynth) = true -> same_shape q q') ->
  driver o simplify reduce ctl ltl synth s1 search tar net qs = driver o simplify reduce ctl ltl synth s2 search tar net qs.
Proof. exact driver_siphon. Qed.
Print Assumptions C42_siphon_never_used.
