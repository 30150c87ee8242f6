(** C35: controller synthesis without partial-order reduction. *)
From Verif Require Import Base NetSpec NetModel NetProofs StoreProofs BuilderModel SynSpec SynModel SynMain SynTerm SynExamples.

(** "control: AF goal" is answered yes only if the controller has a strategy, without memory,
    whose every play reaches the goal within the bound, *)
Theorem C35_reach_yes : forall net pred k pick fuel s, layout net -> (N.of_nat (cn_ntrans net) < 2 ^ 32)%N ->
  mark_ok (cn_places net) (cn_init net) ->
  synthesize net false pred k pick fuel = Ok (s, true) ->
  exists g, valid (to_pnet net) (controllable net) g /\ memoryless g /\
    wins_reach (to_pnet net) (controllable net) g (fun m => pred m = true) k (cn_init net).
Proof. intros net pred k pick fuel s L NT MI. exact (reach_yes net false pred k pick L NT MI fuel s eq_refl). Qed.
Print Assumptions C35_reach_yes.

(** and no only if no strategy, not even one with memory, wins. *)
Theorem C35_reach_no : forall net pred k pick fuel s, layout net -> (N.of_nat (cn_ntrans net) < 2 ^ 32)%N ->
  mark_ok (cn_places net) (cn_init net) ->
  synthesize net false pred k pick fuel = Ok (s, false) ->
  forall g, valid (to_pnet net) (controllable net) g ->
    ~ wins_reach (to_pnet net) (controllable net) g (fun m => pred m = true) k (cn_init net).
Proof. intros net pred k pick fuel s L NT MI. exact (reach_no net false pred k pick L NT MI fuel s eq_refl). Qed.
Print Assumptions C35_reach_no.

(** "control: AG good" is answered yes only if the controller has a strategy that stays good, *)
Theorem C35_safe_yes : forall net pred k pick fuel s, layout net -> (N.of_nat (cn_ntrans net) < 2 ^ 32)%N ->
  mark_ok (cn_places net) (cn_init net) ->
  synthesize net true pred k pick fuel = Ok (s, true) ->
  exists g, valid (to_pnet net) (controllable net) g /\ memoryless g /\
    wins_safe (to_pnet net) (controllable net) g (fun m => pred m = true) k (cn_init net).
Proof. intros net pred k pick fuel s L NT MI. exact (safe_yes net true pred k pick L NT MI fuel s eq_refl). Qed.
Print Assumptions C35_safe_yes.

(** and, if no controllable transition loops in a reachable marking, no only if none does. *)
Theorem C35_safe_no : forall net pred k pick fuel s, layout net -> (N.of_nat (cn_ntrans net) < 2 ^ 32)%N ->
  mark_ok (cn_places net) (cn_init net) ->
  (forall m, reachable (to_pnet net) (cn_init net) m ->
     ~ exists t, controllable net t = true /\ step (to_pnet net) m t m) ->
  synthesize net true pred k pick fuel = Ok (s, false) ->
  forall g, valid (to_pnet net) (controllable net) g ->
    ~ wins_safe (to_pnet net) (controllable net) g (fun m => pred m = true) k (cn_init net).
Proof. intros net pred k pick fuel s L NT MI FR. exact (safe_no net true pred k pick L NT MI fuel s eq_refl FR). Qed.
Print Assumptions C35_safe_no.

(** Finding: with such a loop a safety game the controller wins can be answered no. *)
Theorem C35_safety_refuted : exists net s, layout net /\ mark_ok (cn_places net) (cn_init net) /\
  synthesize net true (fun _ => true) 0 fifo 50 = Ok (s, false) /\
  exists g, valid (to_pnet net) (controllable net) g /\ memoryless g /\
    wins_safe (to_pnet net) (controllable net) g (fun _ => True) 0 (cn_init net).
Proof. exact gy_refuted. Qed.
Print Assumptions C35_safety_refuted.

(** The search ends with an answer for every order of the waiting list, or with the error for
    a token count that does not fit 32 bits. *)
Theorem C35_terminates : forall net safety pred k, layout net -> (N.of_nat (cn_ntrans net) < 2 ^ 32)%N ->
  mark_ok (cn_places net) (cn_init net) ->
  exists n, forall pick fuel, n <= fuel ->
    (exists s b, synthesize net safety pred k pick fuel = Ok (s, b)) \/
    (synthesize net safety pred k pick fuel = Throw /\
     exists m t tr, reachable (to_pnet net) (cn_init net) m /\ nth_error (pn_trans (to_pnet net)) t = Some tr /\
       enabled tr m /\ overflows tr m).
Proof. exact synthesis_ends. Qed.
Print Assumptions C35_terminates.

(** The hypotheses are met by a game with choices on both sides, on which both answers occur
    for both kinds of query and for two search orders. *)
Example C35_hypotheses : layout gx_net /\ (N.of_nat (cn_ntrans gx_net) < 2 ^ 32)%N /\
  mark_ok (cn_places gx_net) (cn_init gx_net) /\
  (forall m, reachable (to_pnet gx_net) (cn_init gx_net) m ->
     ~ exists t, controllable gx_net t = true /\ step (to_pnet gx_net) m t m) /\
  cn_ntrans gx_net = 6 /\
  answer (synthesize gx_net false (has gx_calls 14) 0 fifo 200) = Some true /\
  answer (synthesize gx_net false (has gx_calls 12) 0 lifo 200) = Some false /\
  answer (synthesize gx_net true gx_avoid 0 fifo 200) = Some true /\
  answer (synthesize gx_net true gx_avoid2 0 lifo 200) = Some false.
Proof.
  split; [exact gx_layout|]. split; [exact gx_small|]. split; [exact gx_init|]. split; [exact gx_free|].
  vm_compute. repeat split.
Qed.
