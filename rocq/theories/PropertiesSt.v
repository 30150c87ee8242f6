(** Properties of the siphon-trap test for deadlock freedom. *)
From Verif Require Import Base NetSpec NetModel BuilderModel BuilderSpec BuilderMain SearchExamples StModel StSpec StProofs.

(** C19 -- when the test answers that there is no deadlock (on a net with a transition), no
    reachable marking is dead: for every time limit and every choice made on the way. *)
Theorem C19_no_deadlock : forall (net : cnet) (rnd : nat -> nat) (late : nat -> bool),
  layout net -> sorted_arcs net -> length (cn_init net) = cn_places net -> 0 < cn_ntrans net ->
  solve net rnd late = Ok true -> forall m, reachable (to_pnet net) (cn_init net) m -> ~ dead (to_pnet net) m.
Proof. exact solve_sound. Qed.
Print Assumptions C19_no_deadlock.

(** C19 -- the test always ends with an answer and never reads outside its vectors; a positive
    answer means that every siphon contains a marked trap; and without a time limit, on a net
    of the accepted class, it is positive whenever every siphon contains a marked trap. *)
Theorem C19_siphon_trap : forall (net : cnet) (rnd : nat -> nat) (late : nat -> bool), layout net -> sorted_arcs net ->
  exists r, solve net rnd late = Ok r /\
    (r = true -> siphon_trap_property (to_pnet net) (cn_init net)) /\
    ((forall k, late k = false) -> 0 < cn_places net ->
     (forall t tr, nth_error (pn_trans (to_pnet net)) t = Some tr -> tr_pre tr <> [] /\ (forall a, In a (tr_pre tr) -> arc_inhib a = false /\ arc_weight a = 1%N) /\ (forall a, In a (tr_post tr) -> arc_weight a = 1%N)) ->
     siphon_trap_property (to_pnet net) (cn_init net) -> r = true).
Proof. exact solve_exact. Qed.
Print Assumptions C19_siphon_trap.

(** C19 -- nets made by the net builder satisfy the hypotheses. *)
Theorem C19_built_nets : forall cs b reorder net ids tids,
  weights_pos cs -> do_calls b_empty cs = Ok b -> (exists p, is_place cs p) -> make_net b reorder = Ok (net, ids, tids) ->
  layout net /\ sorted_arcs net /\ length (cn_init net) = cn_places net.
Proof. exact built_ok. Qed.
Print Assumptions C19_built_nets.

(** C19 -- without transitions the answer is wrong: the test says that there is no deadlock,
    and the initial marking is one. *)
Theorem C19_no_transitions_refuted : exists net rnd late, layout net /\ sorted_arcs net /\ length (cn_init net) = cn_places net /\
  solve net rnd late = Ok true /\ dead (to_pnet net) (cn_init net).
Proof. exact no_transitions. Qed.
Print Assumptions C19_no_transitions_refuted.

(** The hypotheses are met by the net with a lock, and the test succeeds on it. *)
Example C19_lock : layout sx_net /\ sorted_arcs sx_net /\ length (cn_init sx_net) = cn_places sx_net /\ 0 < cn_ntrans sx_net /\
  solve sx_net (fun k => k) (fun _ => false) = Ok true /\ solve sx_net (fun k => k) (fun k => Nat.leb 2 k) = Ok false.
Proof. exact lock_net. Qed.
