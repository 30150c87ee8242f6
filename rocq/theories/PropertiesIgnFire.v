(** Property theorems about the check with the net without colours, queries about fireable
    transitions (C44). *)
From Verif Require Import Base BaseLemmas NetSpec NetModel BuilderModel ColSyntax ColSpec ExpSyntax ExpSpec ExpModel ExpExamples PqlSyntax PqlSpec PqlModel
  IgnModel IgnSpec IgnCheck IgnMain IgnExamples IgnFireModel IgnFireSpec IgnFireMain IgnFireExamples.

(** C44.  A query EF f or AG f, negated any number of times, where f is about which
    transitions can fire: whatever the check answers is the answer for the coloured net,
    with every order of the search and whenever the time is up, provided that every
    transition of the query takes tokens from some place.  [numbers] is where the tool
    looks up the numbers of the transitions.  (in_range: weights that fit into 32 bits,
    see C11.) *)
Theorem C44_fireability : forall n tname fuel net, cpn_ok n -> arcs_pos n -> 0 < length (cn_pls n) ->
  (forall t k t' k', tname t k = tname t' k' -> t = t' /\ k = k') -> ignorant_net n tname fuel = Ok net ->
  exists pnum tnum tidx, numbers n tname fuel = Ok (pnum, tnum) /\ (forall t, t < length (cn_trs n) -> tnum t = Some (tidx t)) /\
  forall f timeout pick steps q c v, Forall (fun t => t < length (cn_trs n) /\ takes net (tidx t)) (qtrans q) ->
  qcompile net tidx q = Ok c -> in_range c = true -> check_fireability net f timeout pick steps c = Ok v ->
  (v = Satisfied -> fmeans n q) /\ (v = Unsatisfied -> ~ fmeans n q).
Proof. exact fireability_right. Qed.
Print Assumptions C44_fireability.

(** A net where one transition can always fire and the other never: the query that both
    can fire is answered after all markings have been searched. *)
Example C44_fireability_case : cpn_ok fz /\ arcs_pos fz /\ 0 < length (cn_pls fz) /\
  (forall t k t' k', ig_name t k = ig_name t' k' -> t = t' /\ k = k') /\
  exists net pnum tnum tidx c, ignorant_net fz ig_name 10 = Ok net /\ numbers fz ig_name 10 = Ok (pnum, tnum) /\
  (forall t, t < length (cn_trs fz) -> tnum t = Some (tidx t)) /\ Forall (fun t => t < length (cn_trs fz) /\ takes net (tidx t)) (qtrans fz_q) /\
  qcompile net tidx fz_q = Ok c /\ in_range c = true /\ check_fireability net 20 (fun _ => false) (fun _ _ => 0) 20 c = Ok Unsatisfied.
Proof. split; [exact fz_ok|]. split; [exact fz_pos|]. split; [cbn; lia|]. split; [exact ig_name_inj|exact fz_case]. Qed.

(** Refuted: the same without the condition that the transitions take tokens.  A
    transition without arcs is compiled to "true", though its guard may never hold: the
    tool answers that EF fireable(t) is satisfied. *)
Theorem C44_fireability_refuted : exists n q net pnum tnum tidx c, cpn_ok n /\ arcs_pos n /\ 0 < length (cn_pls n) /\
  ignorant_net n ig_name 10 = Ok net /\ numbers n ig_name 10 = Ok (pnum, tnum) /\ (forall t, t < length (cn_trs n) -> tnum t = Some (tidx t)) /\
  Forall (fun t => t < length (cn_trs n)) (qtrans q) /\ qcompile net tidx q = Ok c /\ in_range c = true /\
  check_fireability net 20 (fun _ => false) (fun _ _ => 0) 20 c = Ok Satisfied /\ ~ fmeans n q.
Proof.
  destruct fu_case as (net & pnum & tnum & tidx & c & H1 & H2 & H3 & H4 & H5 & H6). exists fu, (QEF (FFire 0)), net, pnum, tnum, tidx, c.
  split; [exact fu_ok|]. split; [exact fu_pos|]. split; [cbn; lia|]. split; [exact H1|]. split; [exact H2|]. split; [exact H3|].
  split; [repeat constructor|]. split; [exact H4|]. split; [exact H5|]. split; [exact H6|exact fu_never].
Qed.
Print Assumptions C44_fireability_refuted.
