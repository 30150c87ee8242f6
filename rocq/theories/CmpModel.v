(** Model of the entry point of the CTL engine: src/CTL/CTLEngine.cpp splits a query at its
    boolean operators and gives each part to one of the engines.  The engines are parameters
    of the section; the numbers collected in CTLResult and the printing are not modelled. *)
From Verif Require Import Base PqlSyntax PqlSpec PqlModel QueryModel NetModel SearchModel StoreModel QueueModel StubModel StubSearch TarModel.
Set Implicit Arguments.

(** CTLEngine.cpp:82-108, SimpleResultHandler: the result is passed through *)
Definition simple_handle (i : nat) (r : rslt) : rslt * bool := (r, false).
(** CTLEngine.cpp:110-142, ResultHandler: results of negated operands are turned round, and a
    result that decides the conjunction or disjunction ends the search *)
Definition logical_handle (is_conj : bool) (lstate : list bool) (i : nat) (r : rslt) : rslt * bool :=
  let r' := match r with
            | Satisfied => if nth i lstate false then NotSatisfied else Satisfied
            | NotSatisfied => if nth i lstate false then Satisfied else NotSatisfied
            | r => r
            end in
  (r', if is_conj then match r' with NotSatisfied => true | _ => false end
       else match r' with Satisfied => true | _ => false end).

Definition is_not (c : cond) : bool := match c with CNot _ => true | _ => false end.
Definition is_satisfied (r : rslt) : bool := match r with Satisfied => true | _ => false end.
(** PredicateCheckers.cpp:50-73, isTemporal *)
Fixpoint is_temporal (c : cond) : bool :=
  match c with
  | CBool _ | CDead | CCmp _ _ _ | CConj _ _ => false
  | CNot c => is_temporal c
  | CAnd l | COr l => existsb is_temporal l
  | _ => true
  end.
(** CTLEngine.cpp:276-293: the queries that are given to the LTL engine *)
Definition ltl_shape (c : cond) : bool :=
  match c with
  | CAF a | CEG a => negb (is_temporal a)
  | CAU a b | CEU a b => negb (is_temporal a) && negb (is_temporal b)
  | _ => false
  end.
(** What prepareForReachability returns; a null pointer is dereferenced by the search. *)
Definition goal (c : cond) : res cond :=
  r <- prepare_for_reachability c ;; match r with Some (g, _) => Ok g | None => UB end.
(** CTLEngine.cpp:148-159: the operands that are reachability queries *)
Fixpoint reach_goals (l : list cond) : res (list cond) :=
  match l with
  | [] => Ok []
  | c :: l' =>
    if is_reachability c then g <- goal c ;; r <- reach_goals l' ;; Ok (g :: r) else reach_goals l'
  end.
Fixpoint lstates (l : list cond) : list bool :=
  match l with
  | [] => []
  | c :: l' => if is_reachability c then is_not c :: lstates l' else lstates l'
  end.
(** CTLEngine.cpp:184-199: the answer, if one of the results decides it *)
Fixpoint collect (is_conj : bool) (l : list cond) (rs : list rslt) : res (option bool) :=
  match l with
  | [] => Ok None
  | c :: l' =>
    if is_reachability c then
      match rs with
      | [] => UB
      | r :: rs' =>
        if is_unknown r then collect is_conj l' rs'
        else if xorb (is_satisfied r) is_conj then Ok (Some (negb is_conj))
        else collect is_conj l' rs'
      end
    else collect is_conj l' rs
  end.

Section Engines.
  (** The engines: [reach] is ReachabilitySearch::reachable or TARReachabilitySearch::reachable
      on a list of goals, with a result handler; [ltl] is LTLSearch::solve; [single] is
      CTLSingleSolve.  The first argument is the position in the query, so that two calls may
      differ in their random choices. *)
  Variable reach : list nat -> list cond -> (nat -> rslt -> rslt * bool) -> res (list rslt).
  Variable ltl : list nat -> cond -> res bool.
  Variable single : list nat -> cond -> res bool.

  (** CTLEngine.cpp:202-211: the other operands, one after the other *)
  Section Rec.
    Variable solve : list nat -> cond -> res bool.
    Variable is_conj : bool.
    Variable pos : list nat.
    Definition others : nat -> list cond -> res bool :=
      fix go (i : nat) (l : list cond) : res bool :=
        match l with
        | [] => Ok is_conj
        | c :: l' =>
          if is_reachability c then go (S i) l'
          else
            b <- solve (pos ++ [i]) c ;;
            if xorb b is_conj then Ok (negb is_conj) else go (S i) l'
        end.
    (** CTLEngine.cpp:144-212, solveLogicalCondition *)
    Definition solve_logical (l : list cond) : res bool :=
      goals <- reach_goals l ;;
      rs <- reach pos goals (logical_handle is_conj (lstates l)) ;;
      d <- collect is_conj l rs ;;
      match d with Some b => Ok b | None => others 0 l end.
  End Rec.

  (** CTLEngine.cpp:226-310, recursiveSolve.  query->isInvariant() is false: the flag is only
      set on the operand of the query, by prepareForReachability. *)
  Fixpoint solve (pos : list nat) (c : cond) : res bool :=
    match c with
    | CNot d => b <- solve pos d ;; Ok (negb b)
    | CAnd l => solve_logical solve true pos l
    | COr l => solve_logical solve false pos l
    | _ =>
      if is_reachability c then
        g <- goal c ;;
        rs <- reach pos [g] simple_handle ;;
        Ok (is_satisfied (last rs Unknown))
      else if negb (contains_next c) && ltl_shape c then ltl pos c
      else single pos c
    end.

  (** CTLEngine.cpp:313-362, CTLMain, for one query; the queries do not influence each other.
      [direct]: the search order is breadth first or random depth first. *)
  Definition ctl_main (net : cnet) (direct : bool) (q : cond) : res bool :=
    match evaluate (net_deadb net) (cn_init net) q with
    | RFalse => Ok false
    | RTrue => Ok true
    | RUnknown => if direct then single [] q else solve [] q
    end.
End Engines.

(** ** TARReachability.cpp:437-498, TARReachabilitySearch::reachable for several queries *)
Section TarReach.
  Variable net : cnet.
  Variable handle : nat -> rslt -> rslt * bool.
  (** TARReachability.cpp:503-530, checkQueries in the initial marking: results, whether to stop *)
  Fixpoint tar_check (goals : list cond) (i : nat) (alldone : bool) : list rslt * bool :=
    match goals with
    | [] => ([], alldone)
    | g :: l =>
      match evaluate (net_deadb net) (cn_init net) g with
      | RTrue =>
        let o := handle i Satisfied in
        if snd o then (fst o :: map (fun _ => Unknown) l, true)
        else let r := tar_check l (S i) alldone in (fst o :: fst r, snd r)
      | _ => let r := tar_check l (S i) false in (Unknown :: fst r, snd r)
      end
    end.
  (** TARReachability.cpp:467-493; [one i g] is the search for the query of number [i] *)
  Fixpoint tar_each (one : nat -> cond -> res bool) (goals : list cond) (i : nat) (rs : list rslt) : res (list rslt) :=
    match goals, rs with
    | g :: l, r :: rs' =>
      if is_unknown r then
        b <- one i g ;;
        let o := handle i (if b then Satisfied else NotSatisfied) in
        if b && snd o then Ok (fst o :: rs')
        else x <- tar_each one l (S i) rs' ;; Ok (fst o :: x)
      else x <- tar_each one l (S i) rs' ;; Ok (r :: x)
    | _, _ => Ok []
    end.
  Definition tar_reach (rnd : nat -> nat -> nat) (fuel steps : nat) (goals : list cond) : res (list rslt) :=
    if has_inhib net then Throw
    else
      let c := tar_check goals 0 true in
      if snd c then Ok (fst c)
      else tar_each (fun i g => tar net g (rnd i) fuel steps) goals 0 (fst c).
End TarReach.

(** ** ReachabilitySearch.cpp:88-160 with ReachabilitySearch.h:117-228, ReachabilitySearch::reachable
    as the CTL engine calls it: all results are Unknown at the start, and there are no
    statistics.  [k]: token bound, 0 for none; [stub]: stubborn reduction is on (-p absent); [rnd]: the number of the first
    query for the heuristic comes from rand(). *)
Definition search_reach (net : cnet) (k : N) (stub mk : bool) (st : strategy) (dist : nat -> list N -> N)
    (rnd fuel : nat) (goals : list cond) (handle : nat -> rslt -> rslt * bool) : res (list rslt) :=
  r <- SearchModel.try_reach (queue_of st) (map pure_query (map (goal_fn net) goals)) dist handle
         (if stub then stub_stream net mk goals else net_stream net) true fuel (cn_places net) k (cn_init net)
         (map (fun _ => Unknown) goals) (map (fun _ => 0%N) goals) (rnd mod length goals) ;;
  Ok (s_res (fst r)).
