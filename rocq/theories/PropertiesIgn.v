(** Property theorems about the check with the net without colours (C44). *)
From Verif Require Import Base BaseLemmas NetSpec NetModel BuilderModel ColSyntax ColSpec ExpSyntax ExpSpec ExpModel ExpExamples PqlSyntax PqlSpec PqlModel
  LpModel LpSpec SimpModel SimpSpec IgnModel IgnSpec IgnCheck IgnMain IgnVerdict IgnSimp IgnExamples.

(** C44.  For every coloured net (well typed, no arc expression with a zero, at least one
    place): if the net without colours is built at all, it has the same places, and
    whatever the coloured net does, it can do as well, with the same numbers of tokens:
    every run of the coloured net has a run of the same length in it. *)
Theorem C44_over_approximation : forall n tname fuel net, cpn_ok n -> arcs_pos n -> 0 < length (cn_pls n) ->
  (forall t k t' k', tname t k = tname t' k' -> t = t' /\ k = k') -> ignorant_net n tname fuel = Ok net ->
  exists pidx, same_places n net pidx /\
  forall ts M, crun n (cinit n) ts M ->
    exists w m, NetSpec.run (to_pnet net) (cn_init net) w m /\ length w = length ts /\ same_tokens n net pidx M m.
Proof. exact ignorant_runs. Qed.
Print Assumptions C44_over_approximation.

(** C44.  A query EF f or AG f, negated any number of times, where f is about numbers of
    tokens: whatever the check answers is the answer for the coloured net, provided that
    the constants that simplification gives for the two queries it is asked about are
    right.  (in_range: comparisons that fit into 32 bits, see C11.) *)
Theorem C44_cardinality : forall n tname fuel net, cpn_ok n -> arcs_pos n -> 0 < length (cn_pls n) ->
  (forall t k t' k', tname t k = tname t' k' -> t = t' /\ k = k') -> ignorant_net n tname fuel = Ok net ->
  exists pidx, same_places n net pidx /\
  forall f simplify q v,
  (forall q0 q1 e, prepared net f (rename pidx q) = Ok (q0, q1, e) ->
     constant_right net q0 (fst (simplify q0 q1)) /\ constant_right net q1 (snd (simplify q0 q1))) ->
  reach_query q = true -> in_range q = true -> Forall (fun p => p < length (cn_pls n)) (places q) ->
  check_cardinality net f simplify (rename pidx q) = Ok v ->
  (v = Satisfied -> means n q) /\ (v = Unsatisfied -> ~ means n q).
Proof. exact cardinality_right. Qed.
Print Assumptions C44_cardinality.

(** C44.  The same with the simplification of C15, for every sound solver. *)
Theorem C44_cardinality_simplified : forall n tname fuel net, cpn_ok n -> arcs_pos n -> 0 < length (cn_pls n) ->
  (forall t k t' k', tname t k = tname t' k' -> t = t' /\ k = k') -> ignorant_net n tname fuel = Ok net ->
  exists pidx, same_places n net pidx /\
  forall addr clock simplex intopt, (forall r s, addr r = addr s -> r = s) -> (forall k, clock k = true -> clock (S k) = true) ->
  sound_solver simplex -> sound_solver intopt ->
  forall f q v q0 q1 e s0 f0 s0' s1 f1 s1', reach_query q = true -> in_range q = true -> Forall (fun p => p < length (cn_pls n)) (places q) ->
  prepared net f (rename pidx q) = Ok (q0, q1, e) ->
  query_ok (cn_places net) (cn_init net) q0 = true -> query_ok (cn_places net) (cn_init net) q1 = true ->
  simplify addr clock simplex intopt net (cn_init net) q0 s0 = Ok (f0, s0') ->
  simplify addr clock simplex intopt net (cn_init net) q1 s1 = Ok (f1, s1') ->
  check_cardinality net f (fun _ _ => (f0, f1)) (rename pidx q) = Ok v ->
  (v = Satisfied -> means n q) /\ (v = Unsatisfied -> ~ means n q).
Proof. exact cardinality_simplified. Qed.
Print Assumptions C44_cardinality_simplified.

(** A coloured net with a subtraction on an arc, and a query that is not satisfied. *)
Example C44_case : cpn_ok ig_sub /\ arcs_pos ig_sub /\ 0 < length (cn_pls ig_sub) /\
  (forall t k t' k', ig_name t k = ig_name t' k' -> t = t' /\ k = k') /\
  reach_query ig_q = true /\ in_range ig_q = true /\ Forall (fun p => p < length (cn_pls ig_sub)) (places ig_q) /\
  exists net, ignorant_net ig_sub ig_name 10 = Ok net /\ rename (fun p => p) ig_q = ig_q /\
    prepared net 10 ig_q = Ok (ig_q, CBool false, true) /\ check_cardinality net 10 ig_simp ig_q = Ok Unsatisfied /\
    constant_right net ig_q (CBool false) /\ constant_right net (CBool false) (CBool false).
Proof.
  split; [exact ig_sub_ok|]. split; [exact ig_sub_pos|]. split; [cbn; lia|]. split; [exact ig_name_inj|]. split; [reflexivity|]. split; [reflexivity|].
  split; [repeat constructor|exact ig_sub_case].
Qed.

(** An inhibitor arc and no subtraction: the net is built with the inhibitor arc. *)
Example C44_case_inhibitor : cpn_ok ig_inh /\ arcs_pos ig_inh /\ 0 < length (cn_pls ig_inh) /\
  ig_read (ignorant_net ig_inh ig_name 10) = Ok (mkPnet 3 [mkTrans [mkArc 0 1 false; mkArc 2 2 true] [mkArc 1 1 false]; ig_trans ([1], [0]) 1], [3; 0; 2]%N).
Proof. split; [exact ig_inh_ok|]. split; [exact ig_inh_pos|]. split; [cbn; lia|exact ig_inh_net]. Qed.

(** Refuted: "the net is built for every well-formed coloured net".  With a subtraction in
    one transition and an inhibitor arc on another the inhibitor arc is added to
    "t___0", which does not exist, and the tool stops with "Could not find t___0", though
    the explicit engine itself handles the net (C37). *)
Theorem C44_always_built_refuted : exists n, cpn_ok n /\ exp_ok n /\ arcs_pos n /\ 0 < length (cn_pls n) /\ ignorant_net n ig_name 10 = Throw.
Proof. exists en. split; [exact en_ok|]. split; [exact en_exp|]. split; [exact en_pos|]. split; [cbn; lia|]. vm_compute. reflexivity. Qed.
Print Assumptions C44_always_built_refuted.
