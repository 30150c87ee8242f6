(** Property C39: the answers of trace abstraction refinement. *)
From Verif Require Import Base NetSpec NetModel PqlSyntax PqlSpec TarModel TarSpec TarMain TarExamples.

(** C39 -- for every net without inhibitor arcs on which numbers stay within 32 bits, every
    query of interval constraints and deadlock tests whose operands compare different places,
    every sequence of random numbers and every bound on the work: if the search answers
    "satisfied", a reachable marking satisfies the query. *)
Theorem C39_satisfied_partial : forall (net : cnet) (q : cond) (rnd : nat -> nat) (fuel steps : nat),
  plain net -> separate q -> (forall p, In p (compared q) -> p < cn_places net) ->
  tar net q rnd fuel steps = Ok true ->
  exists m, reachable (to_pnet net) (cn_init net) m /\ sat (to_pnet net) m q.
Proof. exact tar_satisfied. Qed.
Print Assumptions C39_satisfied_partial.

(** C39 -- if the search answers "not satisfied", no reachable marking satisfies the query,
    provided that no reachable marking is empty. *)
Theorem C39_not_satisfied_partial : forall (net : cnet) (q : cond) (rnd : nat -> nat) (fuel steps : nat),
  plain net -> separate q -> (forall p, In p (compared q) -> p < cn_places net) ->
  (forall m, reachable (to_pnet net) (cn_init net) m -> exists p, tokens m p <> 0%N) ->
  tar net q rnd fuel steps = Ok false ->
  forall m, reachable (to_pnet net) (cn_init net) m -> ~ sat (to_pnet net) m q.
Proof. exact tar_not_satisfied. Qed.
Print Assumptions C39_not_satisfied_partial.
Example C39_case : plain txa /\ separate txa_yes /\ separate txa_no /\ (forall p, In p (compared txa_yes) -> p < cn_places txa) /\
  (forall p, In p (compared txa_no) -> p < cn_places txa) /\ (forall m, reachable (to_pnet txa) (cn_init txa) m -> exists p, tokens m p <> 0%N) /\
  tar txa txa_yes (fun k => k) 50 100 = Ok true /\ tar txa txa_no (fun k => k) 50 100 = Ok false.
Proof.
  split; [apply txa_plain|]. split; [apply sep_yes|]. split; [apply sep_no|]. split; [apply sep_yes|]. split; [apply sep_no|]. split; [exact txa_nonzero|]. split; vm_compute; reflexivity.
Qed.

(** Nets with inhibitor arcs are refused. *)
Theorem C39_inhibitor : forall (net : cnet) (q : cond) (rnd : nat -> nat) (fuel steps t : nat) (a : arc),
  t < cn_ntrans net -> In a (tr_pre (net_trans net t)) -> arc_inhib a = true -> tar net q rnd fuel steps = Throw.
Proof. exact tar_inhibitor. Qed.
Print Assumptions C39_inhibitor.

(** The restriction on the places of a disjunction is needed: here two operands compare the
    same place, and the search answers "not satisfied" although the query is reachable. *)
Theorem C39_disjunction_refuted : exists (net : cnet) (q : cond), plain net /\
  (forall m, reachable (to_pnet net) (cn_init net) m -> exists p, tokens m p <> 0%N) /\ atomic q = true /\
  tar net q (fun k => k) 50 100 = Ok false /\ exists m, reachable (to_pnet net) (cn_init net) m /\ sat (to_pnet net) m q.
Proof. exact (ex_intro _ txa (ex_intro _ txa_or txa_or_wrong)). Qed.
Print Assumptions C39_disjunction_refuted.
(** So is the restriction on deadlock tests: [deadlock or p >= 3] is answered wrongly, and
    [p >= 3 or deadlock] correctly. *)
Theorem C39_deadlock_refuted : exists (net : cnet) (q : cond), plain net /\
  (forall m, reachable (to_pnet net) (cn_init net) m -> exists p, tokens m p <> 0%N) /\ atomic (COr [CDead; q]) = true /\
  tar net (COr [CDead; q]) (fun k => k) 50 100 = Ok false /\
  (exists m, reachable (to_pnet net) (cn_init net) m /\ sat (to_pnet net) m (COr [CDead; q])) /\
  tar net (COr [q; CDead]) (fun k => k) 50 100 = Ok true.
Proof. exact (ex_intro _ txz (ex_intro _ (CConj false [mkCons 0 3 u32max]) txz_or_wrong)). Qed.
Print Assumptions C39_deadlock_refuted.
(** A comparison for equality of sums is never answered, whatever the random numbers and the
    bounds, although the net is bounded and a reachable marking satisfies it. *)
Theorem C39_equality_refuted : exists (net : cnet) (q : cond), plain net /\ atomic q = true /\
  (forall rnd fuel steps, tar net q rnd fuel steps = NoFuel) /\
  exists m, reachable (to_pnet net) (cn_init net) m /\ sat (to_pnet net) m q.
Proof. exact (ex_intro _ txa (ex_intro _ txa_eq txa_eq_never)). Qed.
Print Assumptions C39_equality_refuted.
