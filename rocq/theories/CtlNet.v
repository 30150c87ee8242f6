(** The on-the-fly graph of a net, and the single-query entry point of the CTL engine. *)
From Verif Require Import Base NetSpec NetModel PqlSyntax PqlModel QueryModel DgSpec DgModel CtlModel.
Set Implicit Arguments.

(** OnTheFlyDG.cpp:522-544, nextStates: the markings of the successor generator, in order.  A
    marking counter that overflows makes the generator throw, which ends the run; the
    theorems assume that this does not happen. *)
Definition net_succs (net : cnet) (m : list N) : list (list N) :=
  match successors net m with Ok r => map snd r | _ => [] end.
Definition ctl_graph (net : cnet) (root : cond) : graph ctlconf := dg (net_deadb net) (net_succs net) root.

(** src/CTL/CTLEngine.cpp:53-76, CTLSingleSolve with the certain-zero algorithm: the graph is
    searched from the initial marking and the whole query (OnTheFlyDG.cpp:509-512). *)
Definition ctl_single_solve (net : cnet) (root : cond) (addr : nat -> nat) (choice : nat -> nat) (fuel : nat) : res bool :=
  search ctlconf_eq (ctl_graph net root) addr (cn_init net, []) choice fuel.

(** src/CTL/CTLEngine.cpp:324-358, CTLMain with search order BFS or RDFS: a query decided by
    evaluation in the initial marking is answered at once. *)
Definition ctl_main_direct (net : cnet) (root : cond) (addr : nat -> nat) (choice : nat -> nat) (fuel : nat) : res bool :=
  match evaluate (net_deadb net) (cn_init net) root with
  | RFalse => Ok false
  | RTrue => Ok true
  | RUnknown => ctl_single_solve net root addr choice fuel
  end.
