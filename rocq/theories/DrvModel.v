(** Model of the main function of the tool, from the query simplification on: which engine
    answers which query, and the verdicts that are printed.  The engines, the simplification
    and the reduction of the net are parameters.  Not modelled: state-space exploration,
    replay of traces, bounds queries, writing of files, statistics and printed traces. *)
From Verif Require Import Base PqlSyntax PqlSpec PqlModel QueryModel NetModel SearchModel QueueModel StubModel StubSearch CmpModel SynModel.
Set Implicit Arguments.

(** A query: a formula, or a formula under "control". *)
Inductive dq := QPlain (c : cond) | QControl (c : cond).
Definition body (q : dq) : cond := match q with QPlain c | QControl c => c end.

(** include/PetriEngine/Reachability/ReachabilityResult.h:39-54, Result: the results kept
    per query. *)
Inductive outc := ORes (r : rslt) | OCTL | OLTL | OSynth.
Definition is_open (o : outc) : bool := match o with ORes Unknown => true | _ => false end.
Definition is_ctl (o : outc) : bool := match o with OCTL => true | _ => false end.
Definition is_ltl (o : outc) : bool := match o with OLTL => true | _ => false end.
Definition is_synth (o : outc) : bool := match o with OSynth => true | _ => false end.

(** What is printed: "FORMULA name TRUE/FALSE", "Query is MAYBE satisfied", and the numbers
    of a state-space exploration. *)
Inductive line := LFormula (i : nat) (b : bool) | LMaybe (i : nat) | LSpace.

(** src/PetriEngine/Reachability/ResultPrinter.cpp:24-154, handle: the lines it prints
    (see QueueModel.printer_handle for what it returns). *)
Definition printed (approx statespace inv : bool) (i : nat) (r : rslt) : list line :=
  match r with
  | Unknown => []
  | _ =>
    let retval :=
      if approx then
        match r with
        | Satisfied => Unknown
        | NotSatisfied => if inv then Satisfied else NotSatisfied
        | _ => r
        end
      else r in
    if approx && is_unknown retval then [LMaybe i]
    else if statespace || is_unknown retval then [LSpace]
    else
      let final := match r with
                   | Satisfied => if inv then NotSatisfied else Satisfied
                   | NotSatisfied => if inv then Satisfied else NotSatisfied
                   | _ => retval
                   end in
      match final with
      | Satisfied => [LFormula i true]
      | NotSatisfied => [LFormula i false]
      | _ => []
      end
  end.
(** handle without over-approximation and state-space exploration *)
Definition answer (inv : bool) (i : nat) (r : rslt) : rslt * list line :=
  (fst (printer_handle false false inv None r), printed false false inv i r).

(** The options that matter here, include/PetriEngine/options.h. *)
Record dopts := mkO {
  o_trace : bool;      (* trace != None *)
  o_approx : bool;     (* strategy == OverApprox *)
  o_noreach : bool;    (* noreach *)
  o_ltl : bool;        (* logic == LTL *)
  o_simplify : bool;   (* queryReductionTimeout > 0 *)
  o_write : bool;      (* model_out_file given *)
  o_reduce : bool;     (* enablereduction > 0 *)
  o_verify : bool;     (* doVerification *)
  o_ltlalg : bool;     (* ltlalgorithm != None *)
  o_siphon : bool;     (* siphontrapTimeout > 0 *)
  o_tar : bool         (* tar *)
}.

(** The lines printed so far, and how the run ended. *)
Definition out : Type := (list line * res unit)%type.
Definition emit (l : list line) (o : out) : out := (l ++ fst o, snd o).
Definition stop : out := ([], Ok tt).
Definition fail (A : Type) (r : res A) : out :=
  ([], match r with Ok _ => Ok tt | Throw => Throw | UB => UB | NoFuel => NoFuel end).

(** src/main.cpp:215-233: queries decided by the initial marking become constants. *)
Definition decide (net : cnet) (q : dq) : tv :=
  match q with QPlain c => evaluate (net_deadb net) (cn_init net) c | QControl _ => RUnknown end.
Definition initial (net : cnet) (q : dq) : dq :=
  match decide net q with RTrue => QPlain (CBool true) | RFalse => QPlain (CBool false) | RUnknown => q end.
Definition solved (net : cnet) (q : dq) : bool :=
  match decide net q with RUnknown => false | _ => true end.

(** main.cpp:242-296: the answers of the simplification and the engine for each other query.
    [sv]: the query was decided by the initial marking.  Result, lines, and whether this query
    leaves alldone as it is. *)
Definition plain_reach (q : dq) : bool := match q with QPlain c => is_reachability c | QControl _ => false end.
Definition classify1 (o : dopts) (i : nat) (sv : bool) (q : dq) : outc * list line * bool :=
  match q with
  | QPlain (CBool true) => let a := answer false i Satisfied in (ORes (fst a), snd a, true)
  | QPlain (CBool false) =>
    (* with traces the printer is tricked: satisfied, but an invariant *)
    let a := if sv && o_trace o then answer true i Satisfied else answer false i NotSatisfied in
    (ORes (fst a), snd a, true)
  | _ =>
    if o_approx o then let a := answer false i Unknown in (ORes (fst a), snd a, true)
    else if o_noreach o || negb (plain_reach q) then
      (match q with QControl _ => OSynth | QPlain _ => if o_ltl o then OLTL else OCTL end, [], false)
    else (ORes Unknown, [], false)
  end.
Fixpoint classify (o : dopts) (i : nat) (l : list (bool * dq)) : list outc * list line * bool :=
  match l with
  | [] => ([], [], true)
  | (sv, q) :: l' =>
    let a := classify1 o i sv q in
    let r := classify o (S i) l' in
    (fst (fst a) :: fst (fst r), snd (fst a) ++ snd (fst r), snd a && snd r)
  end.

(** main.cpp:364-375: the numbers of the queries with a given kind of result *)
Definition ids (p : outc -> bool) (rs : list outc) : list nat :=
  filter (fun i => p (nth i rs OSynth)) (seq 0 (length rs)).
(** main.cpp:410, 451, 479 and 501: std::find(results, Unknown) == end *)
Definition none_open (rs : list outc) : bool := forallb (fun o => negb (is_open o)) rs.
Definition nthq (qs : list dq) (i : nat) : cond := body (nth i qs (QPlain (CBool false))).

Section Driver.
  Variable o : dopts.
  (** simplify_queries (C11, C15), one after the other or in parallel. *)
  Variable simplify : list dq -> list dq.
  (** PetriNetBuilder::reduce and makePetriNet (C22), with the queries over the new numbers. *)
  Variable reduce : list dq -> list outc -> res (cnet * list dq).
  (** CTLMain (C40), LTLSearch::solve (C33), SimpleSynthesis::synthesize (C35) for one query,
      and STSolver::solve (C19): whether it shows that there is no deadlock. *)
  Variable ctl ltl synth : cnet -> nat -> cond -> res bool.
  Variable siphon : cnet -> nat -> bool.
  (** ReachabilitySearch::reachable and TARReachabilitySearch::reachable: the goals, which of
      them are open, and the handler; the results that are given to the handler, in order. *)
  Variable search tar : cnet -> list cond -> list bool -> (nat -> rslt -> rslt * bool) -> list (nat * rslt) * res unit.

  (** CTLEngine.cpp:325-361 and main.cpp:395-454: one query after the other; [k] goes on. *)
  Fixpoint each (f : nat -> cond -> res bool) (qs : list dq) (l : list nat) (k : out) : out :=
    match l with
    | [] => k
    | i :: l' =>
      match f i (nthq qs i) with
      | Ok b => emit [LFormula i b] (each f qs l' k)
      | e => fail e
      end
    end.

  (** main.cpp:457-482 *)
  Fixpoint synths (net : cnet) (qs : list dq) (l : list nat) (rs : list outc) (k : list outc -> out) : out :=
    match l with
    | [] => k rs
    | i :: l' =>
      if o_tar o then ([], Throw)
      else
        match synth net i (nthq qs i) with
        | Ok b =>
          let rs' := upd rs i (ORes (if b then Satisfied else NotSatisfied)) in
          emit [LFormula i b] (if none_open rs' then stop else synths net qs l' rs' k)
        | e => fail e
        end
    end.

  (** main.cpp:487-504 and STSolver.cpp:206-212: the answer is printed for query 0 *)
  Fixpoint siphons (net : cnet) (qs : list dq) (l : list nat) (rs : list outc) (k : list outc -> out) : out :=
    match l with
    | [] => k rs
    | i :: l' =>
      match nth i qs (QPlain (CBool false)), nth i rs OSynth with
      | QPlain CDead, ORes Unknown =>
        if siphon net i then
          let a := answer false 0 NotSatisfied in
          emit (snd a) (siphons net qs l' (upd rs i (ORes (fst a))) k)
        else siphons net qs l' rs k
      | _, _ => siphons net qs l' rs k
      end
    end.

  (** main.cpp:509-514, prepareForReachability of the open queries: the goals and their
      invariant flags; a null pointer is used by the search *)
  Fixpoint goals (qs : list dq) (rs : list outc) : res (list (cond * bool)) :=
    match qs, rs with
    | q :: qs', r :: rs' =>
      g <- (if is_open r then
              match q with
              | QPlain c => p <- prepare_for_reachability c ;; match p with Some g => Ok g | None => UB end
              | QControl _ => UB
              end
            else Ok (body q, false)) ;;
      l <- goals qs' rs' ;; Ok (g :: l)
    | _, _ => Ok []
    end.
  Definition reachability (net : cnet) (qs : list dq) (rs : list outc) : out :=
    match goals qs rs with
    | Ok gs =>
      let handle := fun i r => printer_handle false false (snd (nth i gs (CBool false, false))) None r in
      let e := if o_tar o && (0 <? cn_places net) then tar else search in
      let r := e net (map fst gs) (map is_open rs) handle in
      (flat_map (fun c => printed false false (snd (nth (fst c) gs (CBool false, false))) (fst c) (snd c)) (fst r), snd r)
    | e => fail e
    end.

  (** main.cpp:353-565, the verification *)
  Definition verify (net : cnet) (qs : list dq) (rs : list outc) : out :=
    let c := ids is_ctl rs in
    let l := ids is_ltl rs in
    let s := ids is_synth rs in
    each (ctl net) qs c (
    if negb (Nat.eqb (length c) 0) && none_open rs then stop
    else
      each (ltl net) qs (if o_ltlalg o then l else []) (
      if negb (Nat.eqb (length l) 0) && o_ltlalg o && none_open rs then stop
      else
        synths net qs s rs (fun rs =>
        let next rs := reachability net qs rs in
        if o_siphon o then
          siphons net qs (seq 0 (length rs)) rs (fun rs => if none_open rs then stop else next rs)
        else next rs))).

  (** main.cpp:215-236: the queries that are left after the simplification, *)
  Definition rewritten (net : cnet) (qs : list dq) : list dq := simplify (map (initial net) qs).
  (** main.cpp:242-300: what becomes of them, *)
  Definition classified (net : cnet) (qs : list dq) : list outc * list line * bool :=
    classify o 0 (combine (map (solved net) qs) (rewritten net qs)).
  Definition outcomes (net : cnet) (qs : list dq) : list outc := fst (fst (classified net qs)).
  (** main.cpp:313-323 and PetriNetBuilder.cpp:555-561: and the net and the queries that are
      verified; no reduction with a control query. *)
  Definition prepared (net : cnet) (qs : list dq) : res (cnet * list dq) :=
    let rs := outcomes net qs in
    if o_reduce o then if existsb is_synth rs then Throw else reduce (rewritten net qs) rs
    else Ok (net, rewritten net qs).

  (** main.cpp:186-353 *)
  Definition driver (net : cnet) (qs : list dq) : out :=
    match qs with
    | [] => ([], Throw)
    | _ =>
      let alldone := o_simplify o && snd (classified net qs) in
      emit (snd (fst (classified net qs))) (
      if alldone && negb (o_write o) then stop
      else
        match prepared net qs with
        | Ok p =>
          if alldone || o_approx o || negb (o_verify o) then stop
          else verify (fst p) (snd p) (outcomes net qs)
        | e => fail e
        end)
    end.
End Driver.

(** ** The parts with the default search and -q 0, -r 0, -p *)
(** ReachabilitySearch.h:131-228, as the main function calls it: the solved queries are not
    Unknown.  Lines printed before an exception are not kept here. *)
Definition run_search (st : strategy) (dist : nat -> list N -> N) (rnd fuel : nat) (net : cnet) (goals : list cond) (opn : list bool)
    (handle : nat -> rslt -> rslt * bool) : list (nat * rslt) * res unit :=
  match SearchModel.try_reach (queue_of st) (map pure_query (map (goal_fn net) goals)) dist handle (net_stream net) true fuel (cn_places net) 0
          (cn_init net) (map (fun b : bool => if b then Unknown else Ignore) opn) (map (fun _ => 0%N) goals) (rnd mod length goals) with
  | Ok (s, _) => (rev (map (fun e => (ev_query e, ev_result e)) (s_log s)), Ok tt)
  | Throw => ([], Throw)
  | UB => ([], UB)
  | NoFuel => ([], NoFuel)
  end.
(** src/VerifyPN.cpp:594-600, the first part of simplify_queries: negations are pushed in and
    the initial marking is used.  Out of fuel: the query stays as it is. *)
Definition push_query (net : cnet) (fuel : nat) (q : dq) : dq :=
  match q with
  | QPlain c => match push (net_deadb net) (cn_init net) true fuel false false c with Ok r => QPlain r | _ => q end
  | QControl _ => q
  end.
(** src/PetriEngine/Synthesis/SimpleSynthesis.cpp:60-123 and :592-684: the query is AF or AG (negated EG and EF are left out)
    of a state formula, the answer is the one of C35. *)
Definition run_synth (pick : nat -> nat -> list nat -> nat) (fuel : nat) (net : cnet) (i : nat) (c : cond) : res bool :=
  match c with
  | CAF g => if atomic g then r <- synthesize net false (goal_fn net g) 0 (pick i) fuel ;; Ok (snd r) else Throw
  | CAG g => if atomic g then r <- synthesize net true (goal_fn net g) 0 (pick i) fuel ;; Ok (snd r) else Throw
  | _ => Throw
  end.
(** VerifyPN.cpp:520-690, simplify_queries, in the build without threads (the default): the loop
    over the queries ends (break) at the first one when the initial marking does not fit the LP
    solver, Contexts.h:192-197; [lp]: the rest of the simplification (C15). *)
Fixpoint simplify_loop (net : cnet) (fuel : nat) (lp : dq -> dq) (oob : bool) (l : list dq) : list dq :=
  match l with
  | [] => []
  | q :: l' =>
    if oob then push_query net fuel q :: l'
    else lp (push_query net fuel q) :: simplify_loop net fuel lp oob l'
  end.
Definition simplify_queries (net : cnet) (fuel : nat) (lp : dq -> dq) (timeout : bool) (l : list dq) : list dq :=
  simplify_loop net fuel (if timeout then lp else fun q => q) (timeout && existsb (fun x => (2147483647 <? x)%N) (cn_init net)) l.
