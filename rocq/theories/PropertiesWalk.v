(** C41: the answers of the random walk (search strategy RandomWalk). *)
From Verif Require Import Base NetSpec NetModel StoreSpec SearchModel SearchSpec SearchMain PqlSyntax BuilderModel CtlMain TarExamples
  WalkModel WalkSpec WalkProofs WalkMain WalkExamples.

(** Whatever the random numbers, the potencies, the heuristics, the generator and the
    handler: each reported query is true in a marking that a run of the net reaches, all of
    whose markings strictly between the first and the last one are within the token bound; the
    first printed trace that is not empty is that run. *)
Theorem C41_satisfied_has_witness : forall net o pots, walkable net o pots ->
  forall fs dist handle prints keep k rnd accept fuel wfuel rs0 qst0 heur depth inc s b l1 e l2,
    (forall i, fst (handle i Satisfied) <> Unknown) -> length rs0 = length fs -> heur < length fs ->
    walk net o pots (map pure_query fs) dist handle prints keep k rnd accept fuel wfuel rs0 qst0 heur depth inc = Ok (s, b) ->
    v_log s = l1 ++ e :: l2 ->
    ev_result e = Satisfied /\ exists f m w, nth_error fs (ev_query e) = Some f /\ f m = true /\ inner_run (to_pnet net) k (cn_init net) w m /\
      (keep = true -> prints = true -> untraced l2 -> ev_trace e = Ok w).
Proof. exact satisfied_ok. Qed.
Print Assumptions C41_satisfied_has_witness.

Example C41_satisfied_case : walkable wa None [] /\ exists s e,
  walk wa None [] (map pure_query [at_least 2 1]) (fun _ => 0%N) (fun i r => (r, false)) true true 0 (fun _ => 0%N) accept_exact 3 10
    (map (fun _ => Unknown) [at_least 2 1]) (map (fun _ => 0%N) [at_least 2 1]) 0 5 2 = Ok (s, true) /\ v_log s = [] ++ e :: [] /\ ev_trace e = Ok [0; 1].
Proof. exact wa_one. Qed.

(** The walk ends only when it has found every query (with a handler that neither stops it nor
    leaves a query open): it never gives a negative answer. *)
Theorem C41_ends_with_all_satisfied : forall net o pots, walkable net o pots ->
  forall fs dist handle prints keep k rnd accept fuel wfuel qst0 heur depth inc s b,
    (forall i, fst (handle i Satisfied) <> Unknown) -> (forall i, snd (handle i Satisfied) = false) -> heur < length fs ->
    walk net o pots (map pure_query fs) dist handle prints keep k rnd accept fuel wfuel (map (fun _ => Unknown) fs) qst0 heur depth inc = Ok (s, b) ->
    b = true /\ forall i f, nth_error fs i = Some f -> nth i (v_res s) Unknown = fst (handle i Satisfied) /\
      exists m w, f m = true /\ inner_run (to_pnet net) k (cn_init net) w m.
Proof. exact all_satisfied. Qed.
Print Assumptions C41_ends_with_all_satisfied.

(** No undefined behaviour with one query or without printed traces, for walks below 2^31
    steps; an exception only if the token limit can be exceeded. *)
Theorem C41_outcomes : forall net o pots, walkable net o pots ->
  forall qs dist handle prints keep k rnd accept fuel wfuel rs0 qst0 heur depth inc,
    (forall i, fst (handle i Satisfied) <> Unknown) -> length rs0 = length qs -> heur < length qs ->
    match walk net o pots qs dist handle prints keep k rnd accept fuel wfuel rs0 qst0 heur depth inc with
    | Ok (s, b) => b = true
    | Throw => can_overflow net
    | UB => (keep = true /\ prints = true /\ 2 <= length qs) \/ (2147483647 < N.of_nat wfuel)%N
    | NoFuel => True
    end.
Proof.
  intros net o pots HW qs dist handle prints keep k rnd accept fuel wfuel rs0 qst0 heur depth inc H1 H2 H3.
  assert (X := @walk_outcome net o pots HW qs dist handle prints keep k rnd accept fuel wfuel rs0 qst0 heur depth inc H1 H2 H3).
  destruct (walk _ _ _ _ _ _ _ _ _ _ _ _ _ _ _ _ _ _) as [[s b]| | |]; auto. apply X.
Qed.
Print Assumptions C41_outcomes.

(** Every goal can be found: for a goal reached by a run of at most [depth] transitions there
    are random numbers with which the walk reports it. *)
Theorem C41_every_goal_can_be_found : forall net pots f k, walkable net None pots -> no_overflow net -> (tokens (cn_init net) 0 < 2 ^ 32 - 1)%N ->
  forall dist handle prints keep accept RM D B w gm qst0 depth inc,
    (forall p t, 1 <= p -> 1 <= t -> accept 0 p t = true)%N -> (forall p t, p < t -> accept RM p t = false)%N ->
    (forall m, dist m <= D)%N -> (forall p, In p (init_pots (cn_ntrans net) pots) -> 1 <= p <= B)%N ->
    inner_run (to_pnet net) k (cn_init net) w gm -> f gm = true ->
    (N.of_nat (length w) <= depth)%N -> (N.of_nat (length w) <= 2147483648)%N ->
    (N.of_nat (cn_ntrans net) * (B + N.of_nat (length w * cn_ntrans net) * D) < 4294967296)%N ->
    exists rnd fuel wfuel s e,
      walk net None pots [pure_query f] dist handle prints keep k rnd accept fuel wfuel [Unknown] qst0 0 depth inc = Ok (s, true) /\
      In e (v_log s) /\ ev_query e = 0 /\ ev_result e = Satisfied.
Proof. exact goal_found. Qed.
Print Assumptions C41_every_goal_can_be_found.

Example C41_every_goal_case : walkable wa None [] /\ no_overflow wa /\ (tokens (cn_init wa) 0 < 2 ^ 32 - 1)%N /\
  (forall p t, 1 <= p -> 1 <= t -> accept_exact 0 p t = true)%N /\ (forall p t, p < t -> accept_exact 2147483647 p t = false)%N /\
  (forall p, In p (init_pots (cn_ntrans wa) []) -> 1 <= p <= 1)%N /\ inner_run (to_pnet wa) 0 (cn_init wa) [0; 1] [0; 0; 1]%N /\
  at_least 2 1 [0; 0; 1]%N = true /\ (N.of_nat (cn_ntrans wa) * (1 + N.of_nat (length [0; 1] * cn_ntrans wa) * 10) < 4294967296)%N.
Proof.
  split; [apply wa_walkable|]. split; [exact wa_overflow|]. split; [vm_compute; reflexivity|]. split; [exact accept_exact_0|]. split; [exact accept_exact_max|].
  split; [|split; [exact wa_inner|split; vm_compute; reflexivity]].
  assert (E : init_pots (cn_ntrans wa) [] = [1; 1]%N) by (vm_compute; reflexivity). rewrite E. intros p [<-|[<-|[]]]; split; discriminate.
Qed.

(** Refuted: a printed trace is a run of the net.  With two queries the second trace lacks the
    transitions that were printed with the first one. *)
Theorem C41_traces_are_runs_refuted : exists net fs rnd s e w,
  walkable net None [] /\
  walk net None [] (map pure_query fs) (fun _ => 0%N) (fun i r => (r, false)) true true 0 rnd accept_exact 3 10
    (map (fun _ => Unknown) fs) (map (fun _ => 0%N) fs) 0 5 2 = Ok (s, true) /\
  In e (v_log s) /\ ev_result e = Satisfied /\ ev_trace e = Ok w /\ forall m, ~ run (to_pnet net) (cn_init net) w m.
Proof. exact second_trace_wrong. Qed.
Print Assumptions C41_traces_are_runs_refuted.

(** Refuted: printing traces is always defined.  Two queries true in one marking. *)
Theorem C41_printing_defined_refuted : exists net fs rnd, walkable net None [] /\
  walk net None [] (map pure_query fs) (fun _ => 0%N) (fun i r => (r, false)) true true 0 rnd accept_exact 3 10
    (map (fun _ => Unknown) fs) (map (fun _ => 0%N) fs) 0 5 2 = UB.
Proof. exact second_trace_undefined. Qed.
Print Assumptions C41_printing_defined_refuted.

(** Refuted: the walk agrees with the other search strategies.  With a token bound it reports
    a goal that holds in no marking within the bound, which the others report as not
    reachable (C07, C09). *)
Theorem C41_within_bound_refuted : exists net f rnd s e, walkable net None [] /\ searchable net 1 /\
  walk net None [] [pure_query f] (fun _ => 0%N) (fun i r => (r, false)) true true 1 rnd accept_exact 3 10 [Unknown] [0%N] 0 5 2 = Ok (s, true) /\
  In e (v_log s) /\ ev_query e = 0 /\ ev_result e = Satisfied /\ forall m, kreach (to_pnet net) 1 (cn_init net) m -> f m = false.
Proof. exact beyond_bound. Qed.
Print Assumptions C41_within_bound_refuted.

(** Refuted: a walk of any depth is defined.  The step counter is an int. *)
Theorem C41_long_walk_defined_refuted : exists net f rnd fuel wfuel, walkable net None [] /\
  walk net None [] [pure_query f] (fun _ => 0%N) (fun i r => (r, false)) false false 0 rnd accept_exact fuel wfuel [Unknown] [0%N] 0 3000000000 0 = UB.
Proof. exact long_walk_undefined. Qed.
Print Assumptions C41_long_walk_defined_refuted.
