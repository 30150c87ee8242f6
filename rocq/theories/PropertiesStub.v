(** Properties of the stubborn set reduction of reachability search. *)
From Verif Require Import Base NetSpec NetModel NetProofs PqlSyntax PqlSpec PqlProofs StoreModel SearchModel SearchSpec QueueModel QueueProofs SearchMain SearchExamples
  StubModel StubSpec StubTheory StubSearch StubExamples.

(** C21 -- exploring in each marking only the transitions chosen for the goals finds a marking
    of a goal exactly when exploring everything does. *)
Theorem C21_goals_preserved : forall (net : cnet) (makeready : bool) (goals : list cond) (c : cond) (m0 : marking),
  layout net -> 0 < cn_places net -> dirs_ok net -> length m0 = cn_places net ->
  In c goals -> atomic c = true -> por_cond c = true ->
  (forall m, explored (to_pnet net) (chosen net makeready goals) m0 m -> fits m /\ small m c) ->
  ((exists m, reachable (to_pnet net) m0 m /\ sat (to_pnet net) m c) <->
   (exists m, explored (to_pnet net) (chosen net makeready goals) m0 m /\ sat (to_pnet net) m c)).
Proof. intros net mk goals c m0 L P D. exact (@stubborn_reach net L P D mk goals c m0). Qed.
Print Assumptions C21_goals_preserved.

(** C21 -- the reducing generator delivers steps of the net only, and unless a token count
    leaves 32 bits it delivers every step of a chosen transition; the choice never fails and
    contains enabled transitions only. *)
Theorem C21_generator : forall (net : cnet) (makeready : bool) (goals : list cond) (m : marking),
  layout net -> 0 < cn_places net -> dirs_ok net -> length m = cn_places net -> (forall p, tokens m p < 2 ^ 32)%N ->
  (exists l, stubborn net makeready goals m = Ok l /\ NoDup l /\ forall t, In t l -> t < cn_ntrans net /\ enabled (net_trans net t) m) /\
  (forall t m', In (t, m') (fst (stub_stream net makeready goals m)) -> In t (chosen net makeready goals m) /\ step (to_pnet net) m t m') /\
  (snd (stub_stream net makeready goals m) = Ok tt /\
     (forall t m', In t (chosen net makeready goals m) -> step (to_pnet net) m t m' -> In (t, m') (fst (stub_stream net makeready goals m))) \/
   snd (stub_stream net makeready goals m) = Throw /\
     exists t tr, nth_error (pn_trans (to_pnet net)) t = Some tr /\ enabled tr m /\ overflows tr m).
Proof.
  intros net mk goals m L P D Hm Hf. destruct (@stub_stream_ok net L P D mk goals m Hm Hf) as (A & B).
  destruct (@stubborn_ok net L m Hm P D (proj1 (fits_32 m) Hf) mk goals) as (l & E & F & G & _).
  split; [exists l; auto|]. split; [intros t m' H; destruct (A t m' H) as (X & Y & _); auto|exact B].
Qed.
Print Assumptions C21_generator.

(** C21 -- the whole search with the reduction answers every supported goal exactly: for a
    reachability query the answer is Satisfied iff a goal marking is reachable in the full
    net, and for an invariant query (whose goal is the negated invariant) the opposite. *)
Theorem C21_search_exact : forall (net : cnet) (makeready : bool) (goals : list cond) (st : strategy) (dist : nat -> list N -> N)
    (inv : nat -> bool) (qst0 : list N) (heur fuel : nat) (s : sst (queue_of st)) (b : bool) (i : nat) (c : cond),
  layout net -> 0 < cn_places net -> dirs_ok net -> searchable net 0 -> strategy_ok st ->
  length qst0 = length goals -> heur < length goals ->
  reduced_search net makeready goals st dist inv qst0 heur fuel = Ok (s, b) ->
  nth_error goals i = Some c -> atomic c = true -> por_cond c = true ->
  (forall m, reachable (to_pnet net) (cn_init net) m -> small m c) ->
  (exists m, reachable (to_pnet net) (cn_init net) m /\ sat (to_pnet net) m c) /\ nth i (s_res s) Unknown = (if inv i then NotSatisfied else Satisfied) \/
  (forall m, reachable (to_pnet net) (cn_init net) m -> ~ sat (to_pnet net) m c) /\ nth i (s_res s) Unknown = (if inv i then Satisfied else NotSatisfied).
Proof. intros net mk goals st dist inv qst0 heur fuel s b i c L P D HS Hst Hq Hh E. exact (@reduced_answers net L P D mk goals HS st dist Hst inv qst0 heur Hq Hh fuel s b E i c). Qed.
Print Assumptions C21_search_exact.

(** C21 -- and with enough steps the reduced search ends. *)
Theorem C21_search_ends : forall (net : cnet) (makeready : bool) (goals : list cond) (st : strategy) (dist : nat -> list N -> N)
    (inv : nat -> bool) (qst0 : list N) (heur : nat),
  layout net -> 0 < cn_places net -> dirs_ok net -> searchable net 0 -> strategy_ok st ->
  length qst0 = length goals -> heur < length goals ->
  exists k, forall fuel, k <= fuel -> reduced_search net makeready goals st dist inv qst0 heur fuel <> NoFuel.
Proof. intros net mk goals st dist inv qst0 heur L P D HS Hst Hq Hh. exact (@reduced_terminates net L P D mk goals HS st dist Hst inv qst0 heur Hq Hh). Qed.
Print Assumptions C21_search_ends.

(** The restrictions on goals are necessary: in each of the following cases a goal marking is
    reachable, and the reduced exploration does not find one. *)
Theorem C21_unary_minus_refuted : exists net makeready c,
  layout net /\ dirs_ok net /\ atomic c = true /\ c = CCmp OpLe (Minus (Pl 1)) (Lit (-1)) /\
  (exists m, reachable (to_pnet net) (cn_init net) m /\ sat (to_pnet net) m c) /\
  ~ (exists m, explored (to_pnet net) (chosen net makeready [c]) (cn_init net) m /\ sat (to_pnet net) m c).
Proof.
  exists tx_net, true, tx_minus. split; [exact (proj1 tx_good)|]. split; [exact (proj2 tx_good)|]. split; [reflexivity|]. split; [reflexivity|].
  apply tx_miss; [reflexivity|vm_compute; reflexivity|vm_compute; reflexivity|vm_compute; reflexivity].
Qed.
Print Assumptions C21_unary_minus_refuted.

Theorem C21_negative_factor_refuted : exists net makeready c,
  layout net /\ dirs_ok net /\ atomic c = true /\ c = CCmp OpLe (Mul (-1) [1] []) (Lit (-1)) /\
  (exists m, reachable (to_pnet net) (cn_init net) m /\ sat (to_pnet net) m c) /\
  ~ (exists m, explored (to_pnet net) (chosen net makeready [c]) (cn_init net) m /\ sat (to_pnet net) m c).
Proof.
  exists tx_net, true, tx_neg. split; [exact (proj1 tx_good)|]. split; [exact (proj2 tx_good)|]. split; [reflexivity|]. split; [reflexivity|].
  apply tx_miss; [reflexivity|vm_compute; reflexivity|vm_compute; reflexivity|vm_compute; reflexivity].
Qed.
Print Assumptions C21_negative_factor_refuted.

Theorem C21_large_value_refuted : exists net makeready c,
  layout net /\ dirs_ok net /\ atomic c = true /\ por_cond c = true /\ c = CCmp OpLe (Mul 65536 [0] []) (Lit 1) /\
  (exists m, reachable (to_pnet net) (cn_init net) m /\ sat (to_pnet net) m c) /\
  ~ (exists m, explored (to_pnet net) (chosen net makeready [c]) (cn_init net) m /\ sat (to_pnet net) m c).
Proof.
  exists tx_net, true, tx_big. split; [exact (proj1 tx_good)|]. split; [exact (proj2 tx_good)|]. split; [reflexivity|]. split; [reflexivity|]. split; [reflexivity|].
  apply tx_miss; [reflexivity|vm_compute; reflexivity|vm_compute; reflexivity|vm_compute; reflexivity].
Qed.
Print Assumptions C21_large_value_refuted.

(** A net and a goal that meet the hypotheses, where the reduction omits a transition. *)
Example C21_hypotheses : layout tx_net /\ 0 < cn_places tx_net /\ dirs_ok tx_net /\ searchable tx_net 0 /\
  atomic tx_goal = true /\ por_cond tx_goal = true /\
  (forall m, reachable (to_pnet tx_net) (cn_init tx_net) m -> small m tx_goal) /\
  chosen tx_net true [tx_goal] (cn_init tx_net) = [0] /\ length (fst (net_stream tx_net (cn_init tx_net))) = 2 /\
  (exists s b, tx_run DFS = Ok (s, b) /\ nth 0 (s_res s) Unknown = Satisfied) /\
  (exists s b, reduced_search tx_net true [CCmp OpLe (Lit 2) (Pl 1)] DFS (fun _ _ => 0%N) (fun _ => false) [0%N] 0 20 = Ok (s, b) /\ nth 0 (s_res s) Unknown = NotSatisfied).
Proof.
  split; [exact (proj1 tx_good)|]. split; [vm_compute; lia|]. split; [exact (proj2 tx_good)|]. split; [exact tx_searchable|].
  split; [reflexivity|]. split; [reflexivity|]. split; [exact tx_small|]. split; [exact (proj1 tx_reduces)|]. split; [exact (proj2 tx_reduces)|].
  split; eexists; eexists; (split; [vm_compute; reflexivity|]); reflexivity.
Qed.
