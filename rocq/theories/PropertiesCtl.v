(** Property theorems about the CTL engine: C17. *)
From Verif Require Import Base BaseLemmas NetSpec NetModel NetProofs StoreProofs SearchMain SearchExamples PqlSyntax PqlSpec PqlModel QueryModel
  DgSpec DgModel CtlModel CtlProofs CtlMain CtlNet CtlFrag PqlRuns QueryProofs.

(** C17.  For every query of the accepted fragment ([frag]: the operators that negation
    rewriting produces) the graph that the engine builds on the fly has a solution, its
    negation levels are well defined, and in every reachable marking the solution gives an
    undecided subformula at any position its CTL meaning over maximal runs. *)
Theorem C17_graph_encodes_ctl : forall net root,
  layout net -> 0 < cn_places net -> length (cn_init net) = cn_places net -> fits32 (cn_init net) -> no_overflow net ->
  frag root = true ->
  exists val depth, solution (ctl_graph net root) val /\ leveled (ctl_graph net root) (cn_init net, []) depth /\
    (forall m p c, reachable (to_pnet net) (cn_init net) m -> sub root p = Some c ->
       evaluate (net_deadb net) m c = RUnknown -> (val (m, p) <-> sat (to_pnet net) m c)) /\
    ((forall c, root <> CNot c) -> forall m, reachable (to_pnet net) (cn_init net) m -> (val (m, []) <-> sat (to_pnet net) m root)).
Proof. intros net root L H1 H2 H3 H4 Hf. exact (graph_encodes L H1 H2 H3 H4 root Hf). Qed.
Print Assumptions C17_graph_encodes_ctl.

(** C17 with C18: the answer of the engine, for every edge order and memory layout. *)
Theorem C17_ctl_answer : forall net root addr choice fuel,
  layout net -> 0 < cn_places net -> length (cn_init net) = cn_places net -> fits32 (cn_init net) -> no_overflow net ->
  frag root = true ->
  match ctl_main_direct net root addr choice fuel with
  | Ok b => b = true <-> sat (to_pnet net) (cn_init net) root
  | NoFuel => True
  | _ => False
  end.
Proof. intros net root addr choice fuel L H1 H2 H3 H4 Hf. exact (main_direct_ok L H1 H2 H3 H4 root addr choice fuel Hf). Qed.
Print Assumptions C17_ctl_answer.

(** The engine also searches subformulas that are decided, but not those below a negation. *)
Theorem C17_ctl_single_answer : forall net root addr choice fuel,
  layout net -> 0 < cn_places net -> length (cn_init net) = cn_places net -> fits32 (cn_init net) -> no_overflow net ->
  frag root = true ->
  (evaluate (net_deadb net) (cn_init net) root = RUnknown \/ forall c, root <> CNot c) ->
  match ctl_single_solve net root addr choice fuel with
  | Ok b => b = true <-> sat (to_pnet net) (cn_init net) root
  | NoFuel => True
  | _ => False
  end.
Proof. intros net root addr choice fuel L H1 H2 H3 H4 Hf He. exact (single_solve_ok L H1 H2 H3 H4 addr choice fuel Hf He). Qed.
Print Assumptions C17_ctl_single_answer.

(** A CTL query from its text to its answer: negation rewriting with the initial marking and
    then the engine.  The fragment of the theorems above is what the rewriting produces. *)
Theorem C17_rewritten_ctl_in_fragment : forall deadb m0 initrw fuel nested negated c r,
  ctl c = true -> push deadb m0 initrw fuel nested negated c = Ok r -> frag r = true.
Proof. exact push_frag. Qed.
Print Assumptions C17_rewritten_ctl_in_fragment.
Theorem C17_ctl_query : forall net c r fuel0 addr choice fuel,
  layout net -> 0 < cn_places net -> length (cn_init net) = cn_places net -> fits32 (cn_init net) -> no_overflow net ->
  ctl c = true -> in_range c = true ->
  push (net_deadb net) (cn_init net) true fuel0 false false c = Ok r ->
  match ctl_main_direct net r addr choice fuel with
  | Ok b => b = true <-> sat (to_pnet net) (cn_init net) c
  | NoFuel => True
  | _ => False
  end.
Proof.
  intros net c r fuel0 addr choice fuel L H1 H2 H3 H4 Hc Hr Hp. assert (G := C17_ctl_answer net r addr choice fuel L H1 H2 H3 H4 (push_frag _ _ _ _ _ _ _ Hc Hp)).
  destruct (ctl_main_direct net r addr choice fuel); [|exact G|exact G|exact G]. rewrite G. exact (ctl_push_sat L H1 H2 H3 H4 c fuel0 Hc Hr Hp).
Qed.
Print Assumptions C17_ctl_query.

(** AF (someone in the critical section) and not E (lock free U (critical and EX lock free)) *)
Definition cx_query : cond :=
  CAnd [CAF (CCmp OpEq (Pl 2) (Lit 1)); CNot (CEU (CCmp OpEq (Pl 1) (Lit 1)) (CAnd [CCmp OpEq (Pl 2) (Lit 1); CEX (CCmp OpEq (Pl 0) (Lit 0))]));
        CAX (CAX (COr [CEF (CCmp OpEq (Pl 2) (Lit 1)); CDead]))].
Lemma sx_no_overflow : no_overflow sx_net.
Proof.
  intros m t tr Hr Ht He. apply (kreach_0 (to_pnet sx_net)) in Hr.
  assert (Hin := @closed_all sx_net 0%N sx_marks sx_layout sx_init sx_closed m Hr).
  intros (a & Ha & K).
  assert (Htr : In tr (pn_trans (to_pnet sx_net))) by (eapply nth_error_In; exact Ht).
  assert (B : forall tr, In tr (pn_trans (to_pnet sx_net)) -> forall a, In a (tr_post tr) -> (arc_weight a < 10)%N).
  { vm_compute pn_trans. intros x [<-|[<-|[]]] y Hy; vm_compute in Hy; repeat (destruct Hy as [<-|Hy]; [vm_compute; reflexivity|]); destruct Hy. }
  specialize (B tr Htr a Ha).
  assert (T : (tokens m (arc_place a) < 10)%N).
  { unfold tokens. destruct Hin as [<-|[<-|[]]]; (destruct (arc_place a) as [|[|[|[|n]]]]; vm_compute; reflexivity). }
  assert (Hbig : (20 < 2 ^ 32 - 1)%N) by (vm_compute; reflexivity). lia.
Qed.
Example C17_case : layout sx_net /\ 0 < cn_places sx_net /\ length (cn_init sx_net) = cn_places sx_net /\ fits32 (cn_init sx_net) /\ no_overflow sx_net /\
  frag cx_query = true /\ evaluate (net_deadb sx_net) (cn_init sx_net) cx_query = RUnknown /\
  ctl_main_direct sx_net cx_query (fun i => i) (fun n => n) 60 = Ok true /\
  ctl_main_direct sx_net (CNot cx_query) (fun i => 100 - i) (fun n => 0) 60 = Ok false.
Proof.
  split; [exact sx_layout|]. split; [vm_compute; lia|]. destruct (proj1 (mark_ok_fits sx_net (cn_init sx_net)) sx_init) as (A & B).
  split; [exact A|]. split; [exact B|]. split; [exact sx_no_overflow|]. repeat split; vm_compute; reflexivity.
Qed.
Example C17_query_case : let c := CNot (CEG (CNot (CAG (CEF (CCmp OpEq (Pl 2) (Lit 1)))))) in
  ctl c = true /\ in_range c = true /\
  match push (net_deadb sx_net) (cn_init sx_net) true 30 false false c with
  | Ok r => ctl_main_direct sx_net r (fun i => i) (fun n => n) 90
  | _ => UB
  end = Ok true.
Proof. vm_compute. repeat split. Qed.
