(** C40: the CTL engine splits a query over other engines and answers it right. *)
From Verif Require Import Base BaseLemmas NetSpec NetModel NetProofs PqlSyntax PqlSpec PqlModel PqlProofs PqlRuns QuerySpec QueryModel QueryProofs
  StoreSpec StoreProofs SearchSpec SearchProofs SearchMain SearchExamples QueueModel StubSpec StubModel StubProofs StubMain LtlSpec LtlModel LtlMain LtlQuerySpec LtlQueryModel LtlQueryProofs LtlQueryExamples
  CtlProofs CtlNet CtlFrag CtlMain SearchModel TarModel TarSpec TarMain TarExamples CmpModel CmpSpec CmpFrag CmpProofs CmpSearch CmpMain CmpExamples.

(** Whatever engines are plugged in: if the search for goals, the LTL engine and the engine for
    single queries answer right, so does the composition. *)
Theorem C40_composition : forall net reach ltl single G direct q b,
  layout net -> 0 < cn_places net -> length (cn_init net) = cn_places net -> fits32 (cn_init net) -> no_overflow net ->
  frag q = true -> one_neg q = true ->
  search_right (to_pnet net) (cn_init net) G reach -> (forall g, occurs (CEF g) q -> atomic g = true -> G g) ->
  decides (to_pnet net) (cn_init net) (fun x => occurs x q /\ ltl_shape x = true) ltl ->
  decides (to_pnet net) (cn_init net)
    (fun x => occurs x q /\ frag x = true /\ (evaluate (net_deadb net) (cn_init net) x = RUnknown \/ forall d, x <> CNot d)) single ->
  ctl_main reach ltl single net direct q = Ok b -> (b = true <-> sat (to_pnet net) (cn_init net) q).
Proof. intros net reach ltl single G direct q b L H1 H2 H3 H4. exact (main_ok net L H1 H2 H3 H4 reach ltl single G direct q b). Qed.
Print Assumptions C40_composition.

(** The searches of the tool answer right. *)
Theorem C40_search : forall net st dist rnd fuel, searchable net 0 -> 0 < cn_places net -> strategy_ok st ->
  search_right (to_pnet net) (cn_init net) (fun _ => True)
    (fun pos goals handle => search_reach net 0 false false st (dist pos) (rnd pos) (fuel pos) goals handle).
Proof. intros net st dist rnd fuel HS Hp Hst. exact (plain_right net HS Hp st Hst dist rnd fuel). Qed.
Print Assumptions C40_search.
Theorem C40_search_stubborn : forall net st mk dist rnd fuel, searchable net 0 -> 0 < cn_places net -> strategy_ok st -> dirs_ok net ->
  search_right (to_pnet net) (cn_init net)
    (fun g => por_cond g = true /\ forall m, reachable (to_pnet net) (cn_init net) m -> small m g)
    (fun pos goals handle => search_reach net 0 true mk st (dist pos) (rnd pos) (fuel pos) goals handle).
Proof. intros net st mk dist rnd fuel HS Hp Hst D. exact (stubborn_right net HS Hp st Hst mk dist rnd fuel D). Qed.
Print Assumptions C40_search_stubborn.
Theorem C40_search_tar : forall net rnd fuel steps, plain net ->
  (forall m, reachable (to_pnet net) (cn_init net) m -> exists p, tokens m p <> 0%N) ->
  search_right (to_pnet net) (cn_init net) (fun g => separate g /\ forall p, In p (compared g) -> p < cn_places net)
    (fun pos goals handle => tar_reach net handle (rnd pos) (fuel pos) (steps pos) goals).
Proof. exact tar_right. Qed.
Print Assumptions C40_search_tar.

(** End to end: a CTL query, rewritten by pushNegation, with any search order, with and without
    stubborn reduction of the reachability parts. *)
Theorem C40_answer : forall net st dist rnd fuel comp big expand tr search addr choice fuels direct fuel0 c r b,
  searchable net 0 -> 0 < cn_places net -> no_overflow net -> strategy_ok st ->
  ctl c = true -> in_range c = true ->
  push (net_deadb net) (cn_init net) true fuel0 false false c = Ok r ->
  (forall x, occurs x r -> ltl_shape x = true -> translates tr (SNot (fst (to_spot comp big expand (fst (to_ltl x)) [])))) ->
  (forall pos aut, answer_right (to_pnet net) (cn_init net) aut 0 (search pos aut)) ->
  ctl_main (fun pos goals handle => search_reach net 0 false false st (dist pos) (rnd pos) (fuel pos) goals handle)
    (fun pos x => ltl_solve comp big expand tr (net_deadb net) (search pos) x)
    (fun pos x => ctl_single_solve net x (addr pos) (choice pos) (fuels pos)) net direct r = Ok b ->
  (b = true <-> sat (to_pnet net) (cn_init net) c).
Proof. exact answer_ok. Qed.
Print Assumptions C40_answer.
Theorem C40_answer_stubborn : forall net st mk dist rnd fuel comp big expand tr search addr choice fuels direct fuel0 c r b,
  searchable net 0 -> 0 < cn_places net -> no_overflow net -> strategy_ok st -> dirs_ok net ->
  ctl c = true -> in_range c = true ->
  push (net_deadb net) (cn_init net) true fuel0 false false c = Ok r ->
  (forall g, occurs (CEF g) r -> atomic g = true -> por_cond g = true /\ forall m, reachable (to_pnet net) (cn_init net) m -> small m g) ->
  (forall x, occurs x r -> ltl_shape x = true -> translates tr (SNot (fst (to_spot comp big expand (fst (to_ltl x)) [])))) ->
  (forall pos aut, answer_right (to_pnet net) (cn_init net) aut 0 (search pos aut)) ->
  ctl_main (fun pos goals handle => search_reach net 0 true mk st (dist pos) (rnd pos) (fuel pos) goals handle)
    (fun pos x => ltl_solve comp big expand tr (net_deadb net) (search pos) x)
    (fun pos x => ctl_single_solve net x (addr pos) (choice pos) (fuels pos)) net direct r = Ok b ->
  (b = true <-> sat (to_pnet net) (cn_init net) c).
Proof. exact answer_stubborn_ok. Qed.
Print Assumptions C40_answer_stubborn.
Theorem C40_answer_tar : forall net rnd fuel steps comp big expand tr search addr choice fuels direct fuel0 c r b,
  plain net -> fits32 (cn_init net) -> no_overflow net ->
  (forall m, reachable (to_pnet net) (cn_init net) m -> exists p, tokens m p <> 0%N) ->
  ctl c = true -> in_range c = true ->
  push (net_deadb net) (cn_init net) true fuel0 false false c = Ok r ->
  (forall g, occurs (CEF g) r -> atomic g = true -> separate g /\ forall p, In p (compared g) -> p < cn_places net) ->
  (forall x, occurs x r -> ltl_shape x = true -> translates tr (SNot (fst (to_spot comp big expand (fst (to_ltl x)) [])))) ->
  (forall pos aut, answer_right (to_pnet net) (cn_init net) aut 0 (search pos aut)) ->
  ctl_main (fun pos goals handle => tar_reach net handle (rnd pos) (fuel pos) (steps pos) goals)
    (fun pos x => ltl_solve comp big expand tr (net_deadb net) (search pos) x)
    (fun pos x => ctl_single_solve net x (addr pos) (choice pos) (fuels pos)) net direct r = Ok b ->
  (b = true <-> sat (to_pnet net) (cn_init net) c).
Proof. exact answer_tar_ok. Qed.
Print Assumptions C40_answer_tar.

(** All three engines take part, in both search orders; stubborn reduction gives the same. *)
Example C40_case :
  searchable sx_net 0 /\ 0 < cn_places sx_net /\ no_overflow sx_net /\ strategy_ok DFS /\ dirs_ok sx_net /\
  ctl cp_query = true /\ in_range cp_query = true /\
  push (net_deadb sx_net) (cn_init sx_net) true 30 false false cp_query = Ok cp_pushed /\
  (forall g, occurs (CEF g) cp_pushed -> atomic g = true -> por_cond g = true /\ forall m, reachable (to_pnet sx_net) (cn_init sx_net) m -> small m g) /\
  (forall x, occurs x cp_pushed -> ltl_shape x = true -> translates (fun _ => g_not) (SNot (fst (to_spot CompFull (fun _ => false) true (fst (to_ltl x)) [])))) /\
  (forall aut, answer_right (to_pnet sx_net) (cn_init sx_net) aut 0 (ndfs_check aut (fun _ m _ => net_stream sx_net m) 0 50 true (cn_init sx_net))) /\
  cp_run 0 false false cp_pushed = Ok true /\ cp_run 0 true false cp_pushed = Ok true /\ cp_run 0 false true cp_pushed = Ok true.
Proof. exact cp_case. Qed.
Example C40_case_tar :
  plain sx_net /\ (forall m, reachable (to_pnet sx_net) (cn_init sx_net) m -> exists p, tokens m p <> 0%N) /\
  frag cp_tarq = true /\ one_neg cp_tarq = true /\
  (forall g, occurs (CEF g) cp_tarq -> g = cp_ge 1 \/ g = cp_ge 2 \/ g = cp_crit 1) /\ separate (cp_ge 1) /\ separate (cp_ge 2) /\
  cp_tar = Ok true.
Proof. exact cp_tar_case. Qed.

(** Without the rewriting the answer can be wrong: the search looks for the negation of an
    invariant, and its result is not turned round. *)
Theorem C40_unrewritten_refuted : exists net q b,
  searchable net 0 /\ no_overflow net /\ ctl q = true /\ in_range q = true /\ one_neg q = true /\
  ctl_main (fun pos goals handle => search_reach net 0 false false DFS (fun _ _ => 0%N) 0 50 goals handle)
    (fun _ _ => Throw) (fun pos x => ctl_single_solve net x (fun i => i) (fun n => n) 90) net false q = Ok b /\
  b = false /\ sat (to_pnet net) (cn_init net) q.
Proof. exact unrewritten_wrong. Qed.
Print Assumptions C40_unrewritten_refuted.
(** With a token bound (option -k) the answer depends on the search order: the search stops at the
    bound and its result is reported as final, the dependency graph ignores the bound. *)
Theorem C40_token_bound_refuted : exists net k q, (0 < k)%N /\ searchable net k /\ no_overflow net /\ frag q = true /\ one_neg q = true /\
  let answer direct := ctl_main (fun pos goals handle => search_reach net k false false DFS (fun _ _ => 0%N) 0 50 goals handle)
    (fun _ _ => Throw) (fun pos x => ctl_single_solve net x (fun i => i) (fun n => n) 90) net direct q in
  answer true = Ok true /\ answer false = Ok false /\ sat (to_pnet net) (cn_init net) q.
Proof. exact bound_wrong. Qed.
Print Assumptions C40_token_bound_refuted.
