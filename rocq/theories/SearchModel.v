(** Model of ReachabilitySearch::tryReach, checkQueries, doCallback and of
    ResultPrinter::printTrace.  The template parameters Q (waiting list), W (state set,
    always with history here; StateSet differs only in not storing it) and
    G (successor generator) are parameters of the section. *)
From Verif Require Import Base NetSpec NetModel EncoderModel StoreModel.
Set Implicit Arguments.

(** include/PetriEngine/Reachability/ReachabilityResult.h:38-44, AbstractHandler::Result. *)
Inductive rslt := Satisfied | NotSatisfied | Unknown | Ignore.
Definition is_unknown (r : rslt) : bool := match r with Unknown => true | _ => false end.

(** include/PetriEngine/Structures/Queue.h:26-36: interface of a waiting list.  A push
    receives the identifier, the distance of the marking and (potency queue) the fired
    transition; pop returns EMPTY as [None].  The state may include a random source.
    Both operations may be undefined (the potency queue indexes with SIZE_MAX when no
    candidate was drawn). *)
Record wlist := mkWL {
  wl_t : Type;
  wl_new : wl_t;
  wl_push : wl_t -> nat -> N -> option nat -> res wl_t;
  wl_pop : wl_t -> res (option (nat * wl_t))
}.

(** A query as the search uses it: evaluating it may update a number kept in the query
    (UnfoldedUpperBoundsCondition::setUpperBound); the boolean is "evaluates to RTRUE". *)
Definition query := N -> list N -> N * bool.
Definition pure_query (f : list N -> bool) : query := fun st m => (st, f m).
(** src/PetriEngine/PQL/Evaluation.cpp:293-296 and Expressions.cpp:210-220: sum of the
    places, [limit] is _max ([None]: infinity). *)
Definition bounds_query (ps : list nat) (limit : option N) : query := fun st m =>
  let b := N.max st (sumN (map (fun p => nth p m 0%N) ps)) in
  (b, match limit with Some x => (x <=? b)%N | None => false end).

(** What a result handler sees (arguments of AbstractHandler::handle) and prints. *)
Record event := mkEv {
  ev_query : nat;
  ev_result : rslt;
  ev_value : N;               (* bounds() of the query *)
  ev_trace : res (list nat);  (* printTrace from the last marking *)
  ev_expanded : nat;
  ev_explored : nat;
  ev_maxtok : N;
  ev_bounds : list N
}.

(** src/PetriEngine/Reachability/ResultPrinter.cpp:207-215, printTrace: follow the
    history from [id] to marking 0; the stack reverses the order. *)
Fixpoint print_trace (fuel : nat) (s : store) (id : nat) (acc : list nat) : res (list nat) :=
  match fuel with
  | O => NoFuel
  | S f =>
    if Nat.eqb id 0 then Ok acc
    else
      p <- store_get_history s id ;;
      print_trace f s (fst p) (snd p :: acc)
  end.

Section Search.
  Variable Q : wlist.
  Variable qs : list query.
  Variable dist : nat -> list N -> N.              (* distance heuristic of query i *)
  Variable handle : nat -> rslt -> rslt * bool.    (* the callback *)
  (* generator: the items next() delivers after prepare(m), and how it ends (it may throw) *)
  Variable succ : list N -> list (nat * list N) * res unit.
  Variable usequeries : bool.

  (** ReachabilitySearch.h:71-77 (searchstate_t) and the locals of tryReach. *)
  Record sst := mkSS {
    s_store : store;
    s_queue : wl_t Q;
    s_res : list rslt;
    s_qst : list N;
    s_heur : nat;
    s_sat : nat;             (* _satisfyingMarking *)
    s_log : list event;      (* callbacks so far, latest first *)
    s_expanded : nat;
    s_explored : nat
  }.

  Definition set_store (s : sst) (st : store) : sst :=
    mkSS st (s_queue s) (s_res s) (s_qst s) (s_heur s) (s_sat s) (s_log s) (s_expanded s) (s_explored s).
  Definition set_queue (s : sst) (q : wl_t Q) : sst :=
    mkSS (s_store s) q (s_res s) (s_qst s) (s_heur s) (s_sat s) (s_log s) (s_expanded s) (s_explored s).

  (** ReachabilitySearch.cpp:77-85, doCallback, and the assignment results[i] = r.first. *)
  Definition do_callback (s : sst) (i : nat) (r : rslt) : sst * bool :=
    let e := mkEv i r (nth i (s_qst s) 0%N)
               (print_trace (S (s_sat s)) (s_store s) (s_sat s) [])
               (s_expanded s) (s_explored s) (ss_maxtok (s_store s)) (ss_bound (s_store s)) in
    let o := handle i r in
    (mkSS (s_store s) (s_queue s) (upd (s_res s) i (fst o)) (s_qst s) (s_heur s) (s_sat s)
       (e :: s_log s) (s_expanded s) (s_explored s), snd o).

  (** ReachabilitySearch.cpp:60-72: choosing another query for the heuristic.  The inner
      test reads results[i], which is not Unknown here, so the loop never breaks. *)
  Definition next_heur (s : sst) (i : nat) : sst :=
    if Nat.eqb i (s_heur s) && negb (is_unknown (nth i (s_res s) Unknown)) && (2 <=? length qs) then
      mkSS (s_store s) (s_queue s) (s_res s) (s_qst s)
        (fold_left (fun h n => (h + n) mod length qs) (seq 1 (length qs - 1)) (s_heur s))
        (s_sat s) (s_log s) (s_expanded s) (s_explored s)
    else s.

  (** ReachabilitySearch.cpp:42-74: the loop of checkQueries from query [i]. *)
  Fixpoint check_loop (l : list query) (i : nat) (m : list N) (alldone : bool) (s : sst) : sst * bool :=
    match l with
    | [] => (s, alldone)
    | q :: l' =>
      if is_unknown (nth i (s_res s) Unknown) then
        let v := q (nth i (s_qst s) 0%N) m in
        let s1 := mkSS (s_store s) (s_queue s) (s_res s) (upd (s_qst s) i (fst v)) (s_heur s) (s_sat s)
                    (s_log s) (s_expanded s) (s_explored s) in
        if snd v then
          let r := do_callback s1 i Satisfied in
          if snd r then (fst r, true)
          else check_loop l' (S i) m alldone (next_heur (fst r) i)
        else check_loop l' (S i) m false (next_heur s1 i)
      else check_loop l' (S i) m alldone (next_heur s i)
    end.
  Definition check_queries (m : list N) (s : sst) : sst * bool :=
    if usequeries then check_loop qs 0 m true s else (s, false).

  (** queries[ss.heurquery] is evaluated for the heuristic: out of range without queries. *)
  Definition push_queue (s : sst) (id : nat) (m : list N) (t : option nat) : res sst :=
    if s_heur s <? length qs then
      q <- wl_push Q (s_queue s) id (dist (s_heur s) m) t ;;
      Ok (set_queue s q)
    else UB.

  (** ReachabilitySearch.h:188-210: the loop over the successors; [true]: all done. *)
  Fixpoint process (l : list (nat * list N)) (e : res unit) (s : sst) : res (sst * bool) :=
    match l with
    | [] => u <- e ;; Ok (s, false)
    | (t, m) :: l' =>
      r <- store_add (s_store s) m ;;
      let s1 := set_store s (fst r) in
      match snd r with
      | (true, Some id) =>
        s2 <- push_queue s1 id m (Some t) ;;
        st <- store_set_history (s_store s2) id t ;;
        let s3 := mkSS st (s_queue s2) (s_res s2) (s_qst s2) (s_heur s2) id (s_log s2)
                    (s_expanded s2) (S (s_explored s2)) in
        let c := check_queries m s3 in
        if snd c then Ok (fst c, true) else process l' e (fst c)
      | _ => process l' e s1
      end
    end.

  (** ReachabilitySearch.h:184-212: the main loop, one pop per unit of fuel. *)
  Fixpoint search_loop (fuel : nat) (s : sst) : res (sst * bool) :=
    match fuel with
    | O => NoFuel
    | S f =>
      o <- wl_pop Q (s_queue s) ;;
      match o with
      | None => Ok (s, false)
      | Some (id, q') =>
        d <- store_decode (s_store s) id ;;
        let g := succ (snd d) in
        r <- process (fst g) (snd g) (set_store (set_queue s q') (fst d)) ;;
        if snd r then Ok (fst r, true)
        else
          let s' := fst r in
          search_loop f (mkSS (s_store s') (s_queue s') (s_res s') (s_qst s') (s_heur s') (s_sat s')
                           (s_log s') (S (s_expanded s')) (s_explored s'))
      end
    end.

  (** ReachabilitySearch.h:216-222. *)
  Fixpoint finish_queries (n i : nat) (s : sst) : sst :=
    match n with
    | O => s
    | S n' =>
      finish_queries n' (S i)
        (if is_unknown (nth i (s_res s) Unknown) then fst (do_callback s i NotSatisfied) else s)
    end.

  (** ReachabilitySearch.h:131-228, tryReach, on results [rs0], query states [qst0], with
      [heur] the random initial heurquery. *)
  Definition try_reach (fuel : nat) (places : nat) (k : N) (init : list N) (rs0 : list rslt)
      (qst0 : list N) (heur : nat) : res (sst * bool) :=
    r <- store_add (store_new places k) init ;;
    let s0 := mkSS (fst r) (wl_new Q) rs0 qst0 heur 0 [] 0 1 in
    f <- match snd r with
         | (true, Some id) =>
           let s1 := mkSS (fst r) (wl_new Q) rs0 qst0 heur id [] 0 1 in
           let c := if usequeries then check_queries init s1 else (s1, false) in
           if snd c then Ok (fst c, true)
           else
             s2 <- push_queue (fst c) id init None ;;
             search_loop fuel s2
         | _ => Ok (s0, false)
         end ;;
    if snd f then Ok (fst f, true)
    else Ok (finish_queries (length qs) 0 (fst f), false).
End Search.

(** The unreduced generator as a stream: SuccessorGenerator::prepare / next. *)
Fixpoint gen_stream (fuel : nat) (net : cnet) (m : list N) (g : gen)
  : list (nat * list N) * res unit :=
  match fuel with
  | O => ([], NoFuel)
  | S f =>
    match gen_next net m g with
    | Ok (None, _) => ([], Ok tt)
    | Ok (Some x, g') => let r := gen_stream f net m g' in (x :: fst r, snd r)
    | Throw => ([], Throw)
    | UB => ([], UB)
    | NoFuel => ([], NoFuel)
    end
  end.
Definition net_stream (net : cnet) (m : list N) : list (nat * list N) * res unit :=
  gen_stream (S (cn_ntrans net)) net m gen_prepare.
