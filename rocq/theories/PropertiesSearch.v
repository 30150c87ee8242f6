(** C06, C07, C08, C23, C30, C31: reachability search. *)
From Verif Require Import Base NetSpec NetModel NetProofs StoreModel StoreSpec StoreProofs
  SearchModel SearchSpec QueueModel QueueProofs SearchMain SearchExamples.
From Coq Require Import Permutation.

(** C06 and C08.  Whenever the search reports a query as satisfied, the query holds in a
    marking reachable within the token bound, and the reported trace is a run from the
    initial marking to it.  For every search order, every random choice and every handler
    that does not turn a satisfied query back into an unknown one. *)
Theorem C06_satisfied_has_witness : forall net k st dist rs0 heur fs handle use qst0 fuel s b e,
  searchable net k -> strategy_ok st ->
  (forall i, fst (handle i Satisfied) <> Unknown) ->
  length rs0 = length fs -> length qst0 = length fs -> heur < length fs ->
  search net k st (map pure_query fs) dist handle use rs0 qst0 heur fuel = Ok (s, b) ->
  In e (s_log s) -> ev_result e = Satisfied ->
  exists f m w, nth_error fs (ev_query e) = Some f /\ f m = true /\
    ev_trace e = Ok w /\ krun (to_pnet net) k (cn_init net) w m.
Proof.
  intros net k st dist rs0 heur fs handle use qst0 fuel s b e H1 H2 H3 H4 H5 H6 H7 H8 H9.
  destruct (@positive_answer net k st dist rs0 heur H1 H2 fs handle use qst0 fuel s b e H3 H4 H5 H6 H7 H8 H9) as (f & m & w & A & B & C & D & _).
  exists f, m, w. auto.
Qed.
Print Assumptions C06_satisfied_has_witness.

Example C06_case : searchable sx_net 0 /\ strategy_ok DFS /\
  exists s b e, sx_run DFS true 0 = Ok (s, b) /\ In e (s_log s) /\ ev_result e = Satisfied /\
    ev_query e = 0 /\ ev_trace e = Ok [0].
Proof.
  split; [exact (sx_searchable 0)|]. split; [exact I|].
  eexists. eexists. eexists. split; [vm_compute; reflexivity|]. split; [right; left; reflexivity|].
  repeat split; reflexivity.
Qed.

(** C08: the trace of a satisfied query is a run of the net ending in a satisfying
    marking (without token bound). *)
Theorem C08_trace_is_a_run : forall net st dist rs0 heur fs handle use qst0 fuel s b e,
  searchable net 0 -> strategy_ok st ->
  (forall i, fst (handle i Satisfied) <> Unknown) ->
  length rs0 = length fs -> length qst0 = length fs -> heur < length fs ->
  search net 0 st (map pure_query fs) dist handle use rs0 qst0 heur fuel = Ok (s, b) ->
  In e (s_log s) -> ev_result e = Satisfied ->
  exists f m w, nth_error fs (ev_query e) = Some f /\ ev_trace e = Ok w /\
    run (to_pnet net) (cn_init net) w m /\ f m = true.
Proof.
  intros net st dist rs0 heur fs handle use qst0 fuel s b e H1 H2 H3 H4 H5 H6 H7 H8 H9.
  destruct (@positive_answer net 0 st dist rs0 heur H1 H2 fs handle use qst0 fuel s b e H3 H4 H5 H6 H7 H8 H9) as (f & m & w & A & B & C & (D & _) & _).
  exists f, m, w. auto.
Qed.
Print Assumptions C08_trace_is_a_run.

(** C07.  A query not reported satisfied is reported not satisfied, and then it is false in
    every marking reachable within the token bound, in particular (k = 0) in every
    reachable marking. *)
Theorem C07_negative_is_exhaustive : forall net k st dist rs0 heur fs handle qst0 fuel s b e,
  searchable net k -> strategy_ok st ->
  (forall i, fst (handle i Satisfied) <> Unknown) ->
  length rs0 = length fs -> length qst0 = length fs -> heur < length fs ->
  search net k st (map pure_query fs) dist handle true rs0 qst0 heur fuel = Ok (s, b) ->
  In e (s_log s) -> ev_result e <> Satisfied ->
  ev_result e = NotSatisfied /\
  exists f, nth_error fs (ev_query e) = Some f /\
    (forall m, kreach (to_pnet net) k (cn_init net) m -> f m = false) /\
    (k = 0%N -> forall m, reachable (to_pnet net) (cn_init net) m -> f m = false).
Proof.
  intros net k st dist rs0 heur fs handle qst0 fuel s b e H1 H2 H3 H4 H5 H6 H7 H8 H9.
  destruct (@negative_answer net k st dist rs0 heur H1 H2 fs handle qst0 fuel s b e H3 H4 H5 H6 H7 H8 H9) as (A & f & B & C).
  split; [exact A|]. exists f. split; [exact B|]. split; [intros m Hm; apply (C m Hm)|]. intros -> m Hm. apply C, kreach_0, Hm.
Qed.
Print Assumptions C07_negative_is_exhaustive.

Example C07_case : searchable sx_net 0 /\ strategy_ok (BFS (fun _ l => rev l)) /\
  exists s b e, sx_run (BFS (fun _ l => rev l)) true 0 = Ok (s, b) /\ In e (s_log s) /\
    ev_result e = NotSatisfied /\ ev_query e = 1.
Proof.
  split; [exact (sx_searchable 0)|]. split; [intros n l; apply Permutation_rev|].
  eexists. eexists. eexists. split; [vm_compute; reflexivity|]. split; [left; reflexivity|]. split; reflexivity.
Qed.

(** C06 and C07 together, with the result handler of the tool: after a search that checks
    the queries, every query has the answer of its goal ([inv i] marks queries given as
    invariants, whose goal is the negation). *)
Theorem C07_answers_exact : forall net k st dist rs0 heur fs (inv : nat -> bool) qst0 fuel s b,
  searchable net k -> strategy_ok st ->
  length qst0 = length fs -> heur < length fs -> rs0 = map (fun _ => Unknown) fs ->
  search net k st (map pure_query fs) dist (fun i => printer_handle false false (inv i) None) true rs0 qst0 heur fuel = Ok (s, b) ->
  forall i f, nth_error fs i = Some f ->
  (exists m, kreach (to_pnet net) k (cn_init net) m /\ f m = true /\ mark_ok (cn_places net) m) /\
    nth i (s_res s) Unknown = (if inv i then NotSatisfied else Satisfied) \/
  (forall m, kreach (to_pnet net) k (cn_init net) m -> f m = false /\ mark_ok (cn_places net) m) /\
    nth i (s_res s) Unknown = (if inv i then Satisfied else NotSatisfied).
Proof. intros; eapply answers_exact; eauto. Qed.
Print Assumptions C07_answers_exact.

(** ... and the search always comes to an end: without undefined behaviour (except for
    the potency queue, see C30), and with an exception only if some reachable marking
    enables a transition exceeding the token limit or there are over 2047 places (a
    compressed marking may then be too long to store). *)
Theorem C07_search_ends : forall net k st dist rs0 heur qs handle use qst0,
  searchable net k -> strategy_ok st ->
  (forall i, fst (handle i Satisfied) <> Unknown) ->
  length rs0 = length qs -> length qst0 = length qs -> heur < length qs ->
  exists n, forall fuel, n <= fuel ->
  match search net k st qs dist handle use rs0 qst0 heur fuel with
  | Ok (s, b) =>
    (forall i, nth i (s_res s) Unknown = nth i rs0 Unknown \/
       exists e, In e (s_log s) /\ ev_query e = i /\ nth i (s_res s) Unknown = fst (handle i (ev_result e))) /\
    ((forall i r, r <> Unknown -> fst (handle i r) <> Unknown /\ snd (handle i r) = false) ->
     forall i, i < length qs -> nth i (s_res s) Unknown <> Unknown)
  | Throw => (exists m t tr, kreach (to_pnet net) k (cn_init net) m /\
               nth_error (pn_trans (to_pnet net)) t = Some tr /\ enabled tr m /\ overflows tr m) \/
             2047 < cn_places net
  | UB => is_rpfs st = true
  | NoFuel => False
  end.
Proof. intros; eapply outcomes; eauto. Qed.
Print Assumptions C07_search_ends.

Example C07_case_answers : forall k, searchable sx_net k /\
  (exists s b, sx_run HEUR true 0 = Ok (s, b) /\ s_res s = [NotSatisfied; NotSatisfied]) /\
  (exists s b, sx_run (RPFS (fun _ => true) [1; 1]%N 7) true 0 = Ok (s, b) /\ s_res s = [NotSatisfied; NotSatisfied]) /\
  (exists s b, sx_run (RDFS (fun _ l => l)) true 2 = Ok (s, b) /\ s_res s = [Satisfied; NotSatisfied]).
Proof.
  intros k. split; [exact (sx_searchable k)|]. repeat split; eexists; eexists; (split; [vm_compute; reflexivity|reflexivity]).
Qed.

(** Finding (C07 with a token bound): when the bound cuts off markings the answer is still
    "not satisfied", although a reachable marking satisfies the goal. *)
Theorem C07_token_bound_refuted : exists k s b f e m,
  sx_run DFS true k = Ok (s, b) /\ nth_error sx_fs 0 = Some f /\
  In e (s_log s) /\ ev_query e = 0 /\ ev_result e = NotSatisfied /\
  reachable (to_pnet sx_net) (cn_init sx_net) m /\ f m = true.
Proof. exact token_bound_refuted. Qed.
Print Assumptions C07_token_bound_refuted.

(** C23.  Every value reported for a place-bound query is the maximum over the reachable
    markings of the sum of the places, also when the search stops early because a
    (correct) upper limit is attained. *)
Theorem C23_bounds_exact : forall net k st dist rs0 heur bs handle fuel s b e,
  searchable net k -> strategy_ok st ->
  (forall i, fst (handle i Satisfied) <> Unknown) ->
  length rs0 = length bs -> heur < length bs -> over_bound k (cn_init net) = false ->
  (forall ps x, In (ps, Some x) bs -> forall m, kreach (to_pnet net) k (cn_init net) m -> (sum_places ps m <= x)%N) ->
  search net k st (map (fun q => bounds_query (fst q) (snd q)) bs) dist handle true rs0
    (map (fun _ => 0%N) bs) heur fuel = Ok (s, b) ->
  In e (s_log s) ->
  exists ps lim, nth_error bs (ev_query e) = Some (ps, lim) /\
    is_max (kreach (to_pnet net) k (cn_init net)) (sum_places ps) (ev_value e).
Proof. intros; eapply bounds_answer; eauto. Qed.
Print Assumptions C23_bounds_exact.

Example C23_case : exists s b,
  search sx_net 0 DFS (map (fun q => bounds_query (fst q) (snd q)) [([2; 1], None); ([0], Some 2%N)])
    (fun _ _ => 0%N) (fun i => printer_handle false false false (Some false)) true [Unknown; Unknown] [0; 0]%N 0 10 = Ok (s, b) /\
  map (fun e => (ev_query e, ev_value e)) (s_log s) = [(0, 1%N); (1, 2%N)].
Proof. eexists. eexists. split; [vm_compute; reflexivity|reflexivity]. Qed.

(** C31.  State-space exploration reports the number of reachable markings, the largest
    number of tokens in a marking (in 32 bits) and in each place. *)
Theorem C31_statistics_exact : forall net st dist rs0 heur fs handle qst0 fuel s b e,
  searchable net 0 -> strategy_ok st ->
  (forall i, fst (handle i Satisfied) <> Unknown) ->
  length rs0 = length fs -> length qst0 = length fs -> heur < length fs ->
  search net 0 st (map pure_query fs) dist handle false rs0 qst0 heur fuel = Ok (s, b) ->
  In e (s_log s) -> ev_result e = NotSatisfied ->
  exists l, NoDup l /\ (forall m, In m l <-> reachable (to_pnet net) (cn_init net) m) /\
    ev_explored e = length l /\
    is_max (reachable (to_pnet net) (cn_init net)) total32 (ev_maxtok e) /\
    length (ev_bounds e) = cn_places net /\
    forall p, p < cn_places net ->
      is_max (reachable (to_pnet net) (cn_init net)) (fun m => tokens m p) (nth p (ev_bounds e) 0%N).
Proof. intros; eapply (@statistics_exact net 0); eauto. Qed.
Print Assumptions C31_statistics_exact.

Example C31_case : exists s b e, sx_run DFS false 0 = Ok (s, b) /\ In e (s_log s) /\
  ev_result e = NotSatisfied /\ ev_explored e = 2 /\ ev_maxtok e = 3%N /\ ev_bounds e = [2; 1; 1]%N.
Proof. eexists. eexists. eexists. split; [vm_compute; reflexivity|]. split; [left; reflexivity|]. repeat split. Qed.

(** C30.  Every waiting list returns each pushed identifier exactly once before it
    reports empty: in every state its content is a multiset, push adds one element, pop
    removes one element and reports empty only when there is none.  Identifiers are below
    2^32 (the lists store 32 bits). *)
Theorem C30_bfs_is_a_bag : forall shuf, shuffles shuf ->
  is_bag (2 ^ 32) False (bfs_list shuf) (fun _ => True) (fun q => bq_queue q ++ bq_cache q).
Proof. exact bfs_bag. Qed.
Print Assumptions C30_bfs_is_a_bag.
Theorem C30_dfs_is_a_bag : is_bag (2 ^ 32) False dfs_list (fun _ => True) (fun q => q).
Proof. exact dfs_bag. Qed.
Print Assumptions C30_dfs_is_a_bag.
Theorem C30_rdfs_is_a_bag : forall shuf, shuffles shuf ->
  is_bag (2 ^ 32) False (rdfs_list shuf) (fun _ => True) (fun q => rq_cache q ++ rq_stack q).
Proof. exact rdfs_bag. Qed.
Print Assumptions C30_rdfs_is_a_bag.
Theorem C30_heuristic_is_a_bag : is_bag (2 ^ 32) False heur_list (fun _ => True) (fun q => map snd q).
Proof. exact heur_bag. Qed.
Print Assumptions C30_heuristic_is_a_bag.
Theorem C30_heuristic_order : forall q id q', wl_pop heur_list q = Ok (Some (id, q')) ->
  exists d, In (d, id) q /\ forall d' id', In (d', id') q -> (d < d')%N \/ (d = d' /\ id' <= id).
Proof. exact heur_order. Qed.
Print Assumptions C30_heuristic_order.

Example C30_case : shuffles (fun _ l => rev l) /\
  exists q1 q2 q3, wl_push (rdfs_list (fun _ l => rev l)) (wl_new (rdfs_list (fun _ l => rev l))) 5 0 None = Ok q1 /\
    wl_push (rdfs_list (fun _ l => rev l)) q1 6 0 None = Ok q2 /\
    wl_pop (rdfs_list (fun _ l => rev l)) q2 = Ok (Some (5, q3)) /\ rdfs_content q3 = [6].
Proof. split; [intros n l; apply Permutation_rev|]. do 3 eexists. repeat split. Qed.

(** The potency queue is a bag too, except that a pop may index out of bounds ... *)
Theorem C30_potency_is_a_bag_partial : forall coin pot0 d0,
  is_bag (2 ^ 64) True (pot_list coin pot0 d0) pot_ok pot_content.
Proof. exact pot_bag. Qed.
Print Assumptions C30_potency_is_a_bag_partial.
(** ... which cannot happen while the potencies are positive and their sum fits in 32
    bits ... *)
Theorem C30_potency_pop_defined : forall coin q, pot_ok q -> (sumN (pq_pots q) < 2 ^ 32)%N ->
  (forall p, In p (pq_pots q) -> 0 < p)%N -> pot_pop coin q <> UB.
Proof. exact pot_pop_defined. Qed.
Print Assumptions C30_potency_pop_defined.
(** ... but does happen when a potency wraps to 0: a parent of distance 2^32-1, then a child
    of distance 0 by a transition of potency 1. *)
Theorem C30_potency_pop_refuted : forall coin, exists q1 q2 q3,
  pot_push (pot_new [1]%N 0) 0 (2 ^ 32 - 1) None = Ok q1 /\
  pot_pop coin q1 = Ok (Some (0, q2)) /\
  pot_push q2 1 0 (Some 0) = Ok q3 /\ pot_content q3 = [1] /\ pot_pop coin q3 = UB.
Proof. intros coin. do 3 eexists. repeat split; vm_compute; reflexivity. Qed.
Print Assumptions C30_potency_pop_refuted.

Example C30_case_potency : pot_ok (pot_new [1; 61]%N 0) /\ (sumN [1; 61]%N < 2 ^ 32)%N.
Proof. split; [apply pot_new_ok|reflexivity]. Qed.
