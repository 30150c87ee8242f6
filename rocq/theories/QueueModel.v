(** Models of the waiting lists (Structures/Queue.{h,cpp}, Structures/PotencyQueue.{h,cpp})
    and of ResultPrinter::handle.  std::queue, std::stack, std::vector and
    std::priority_queue are lists; std::shuffle is an arbitrary permutation chosen by the
    n-th draw of a random source. *)
From Verif Require Import Base SearchModel.
Set Implicit Arguments.

(** The lists store uint32_t. *)
Definition id32 (id : nat) : nat := N.to_nat (N.of_nat id mod 2 ^ 32)%N.

Section Shuffled.
  Variable shuf : nat -> list nat -> list nat.   (* result of the n-th std::shuffle *)

  (** src/PetriEngine/Structures/Queue.cpp:37-60, BFSQueue. *)
  Record bfs_t := mkBfs { bq_draw : nat; bq_queue : list nat; bq_cache : list nat }.
  Definition bfs_push (q : bfs_t) (id : nat) : bfs_t :=
    mkBfs (bq_draw q) (bq_queue q) (bq_cache q ++ [id32 id]).
  Definition bfs_pop (q : bfs_t) : option (nat * bfs_t) :=
    match bq_queue q ++ shuf (bq_draw q) (bq_cache q) with
    | [] => None
    | x :: r => Some (x, mkBfs (S (bq_draw q)) r [])
    end.
  Definition bfs_list : wlist :=
    mkWL (mkBfs 0 [] []) (fun q id _ _ => Ok (bfs_push q id)) (fun q => Ok (bfs_pop q)).

  (** Queue.cpp:100-135, RDFSQueue; the top of the stack is the head of the list. *)
  Record rdfs_t := mkRdfs { rq_draw : nat; rq_stack : list nat; rq_cache : list nat }.
  Definition rdfs_push (q : rdfs_t) (id : nat) : rdfs_t :=
    mkRdfs (rq_draw q) (rq_stack q) (rq_cache q ++ [id32 id]).
  Definition rdfs_pop (q : rdfs_t) : option (nat * rdfs_t) :=
    match rq_cache q with
    | [] => match rq_stack q with
            | [] => None
            | x :: r => Some (x, mkRdfs (rq_draw q) r [])
            end
    | _ =>
      let c := shuf (rq_draw q) (rq_cache q) in
      (* _cache.back() is returned, elements 0 .. size-2 are pushed in order *)
      Some (last c 0, mkRdfs (S (rq_draw q)) (rev (removelast c) ++ rq_stack q) [])
    end.
  Definition rdfs_list : wlist :=
    mkWL (mkRdfs 0 [] []) (fun q id _ _ => Ok (rdfs_push q id)) (fun q => Ok (rdfs_pop q)).
End Shuffled.

(** Queue.cpp:62-90, DFSQueue. *)
Definition dfs_list : wlist :=
  mkWL [] (fun q id _ _ => Ok (id32 id :: q))
    (fun q => Ok (match q with [] => None | x :: r => Some (x, r) end)).

(** Queue.h:80-92, weighted_t::operator<: smaller weight is greater, then larger item. *)
Definition wless (a b : N * nat) : bool :=
  if (fst a =? fst b)%N then Nat.ltb (snd a) (snd b) else (fst b <? fst a)%N.
(** std::priority_queue: top/pop return a greatest element. *)
Fixpoint pq_pop (l : list (N * nat)) : option ((N * nat) * list (N * nat)) :=
  match l with
  | [] => None
  | x :: l' =>
    match pq_pop l' with
    | None => Some (x, [])
    | Some (y, r) => if wless x y then Some (y, x :: r) else Some (x, y :: r)
    end
  end.
(** Queue.cpp:168-190, HeuristicQueue. *)
Definition heur_list : wlist :=
  mkWL [] (fun q id d _ => Ok ((d, id32 id) :: q))
    (fun q => Ok (match pq_pop q with None => None | Some (x, r) => Some (snd x, r) end)).

(** src/PetriEngine/Structures/PotencyQueue.cpp, RandomPotencyQueue.  [pot0] are the
    potencies after initialisation ([] for a net without transitions; the queue is
    initialised at construction or at the first push, the model does it at construction).
    [coin] answers the n-th comparison r <= p/n that is not decided by the values: the code
    compares doubles, p/0 is infinite or not a number.  _currentParentDist is
    uninitialised before the first pop; [pq_dist] starts with an arbitrary value. *)
Section Potency.
  Variable coin : nat -> bool.
  Variable pot0 : list N.
  Variable dist0 : N.
  Record pot_t := mkPot {
    pq_draw : nat; pq_size : nat; pq_dist : N; pq_pots : list N; pq_qs : list (list (N * nat)) }.
  Definition pot_new : pot_t :=
    mkPot 0 0 dist0 pot0 (repeat [] (if Nat.eqb (length pot0) 0 then 1 else length pot0)).

  (** PotencyQueue.cpp:78-93 (with a transition) and 33-40 (initial marking, _best = 0). *)
  Definition pot_push (q : pot_t) (id : nat) (d : N) (t : option nat) : res pot_t :=
    match t with
    | None =>
      c <- rd (pq_qs q) 0 ;;
      Ok (mkPot (pq_draw q) (S (pq_size q)) (pq_dist q) (pq_pots q) (upd (pq_qs q) 0 ((d, id) :: c)))
    | Some t =>
      p <- rd (pq_pots q) t ;;
      let p' := if (d <? pq_dist q)%N then ((p + (pq_dist q - d)) mod 2 ^ 32)%N
                else if ((pq_dist q <? d) && negb (p =? 0))%N then
                  (if (d - pq_dist q <=? p - 1)%N then (p - (d - pq_dist q))%N else 1%N)
                else p in
      c <- rd (pq_qs q) t ;;
      Ok (mkPot (pq_draw q) (S (pq_size q)) (pq_dist q) (upd (pq_pots q) t p')
            (upd (pq_qs q) t ((d, id) :: c)))
    end.

  (** PotencyQueue.cpp:107-119, the selection loop; [n] is the running sum in uint32_t. *)
  Fixpoint pot_select (pots : list N) (qs : list (list (N * nat))) (t : nat) (n : N) (draw : nat)
      (cur : option nat) : option nat * nat :=
    match pots with
    | [] => (cur, draw)
    | p :: pots' =>
      match qs with
      | [] => (cur, draw)   (* as many queues as potencies *)
      | [] :: qs' => pot_select pots' qs' (S t) n draw cur
      | _ :: qs' =>
        let n' := ((n + p) mod 2 ^ 32)%N in
        let take := if (n' =? 0)%N then negb (p =? 0)%N
                    else if (n' <=? p)%N then true else coin draw in
        pot_select pots' qs' (S t) n' (S draw) (if take then Some t else cur)
      end
    end.

  Definition pot_take (q : pot_t) (draw : nat) (t : nat) : res (option (nat * pot_t)) :=
    c <- rd (pq_qs q) t ;;
    match pq_pop c with
    | None => UB
    | Some (e, r) =>
      Ok (Some (snd e, mkPot draw (pq_size q - 1) (fst e) (pq_pots q) (upd (pq_qs q) t r)))
    end.
  Definition pot_pop (q : pot_t) : res (option (nat * pot_t)) :=
    if Nat.eqb (pq_size q) 0 then Ok None
    else match pq_pots q with
         | [] => pot_take q (pq_draw q) 0
         | _ => match pot_select (pq_pots q) (pq_qs q) 0 0 (pq_draw q) None with
                | (Some t, d) => pot_take q d t
                | (None, _) => UB        (* _queues[SIZE_MAX] *)
                end
         end.
  Definition pot_list : wlist := mkWL pot_new pot_push pot_pop.
End Potency.

(** src/PetriEngine/Reachability/ResultPrinter.cpp:22-162, handle: the returned pair
    (printing is not modelled).  [inv] is query->isInvariant(), [approx] cpnOverApprox,
    [statespace] statespaceexploration, [bound_unsure] the test of lines 40-44 for bounds
    queries ([None] for other queries). *)
Definition printer_handle (approx statespace : bool) (inv : bool) (bound_unsure : option bool)
    (r : rslt) : rslt * bool :=
  match r with
  | Unknown => (Unknown, false)
  | _ =>
    let retval :=
      if approx then
        match bound_unsure with
        | Some b => if b then Unknown else r
        | None => match r with
                  | Satisfied => Unknown
                  | NotSatisfied => if inv then Satisfied else NotSatisfied
                  | _ => r
                  end
        end
      else r in
    if approx && is_unknown retval then (Ignore, false)
    else if statespace then (Satisfied, false)
    else match r with
         | Satisfied => (if inv then NotSatisfied else Satisfied, false)
         | NotSatisfied => (if inv then Satisfied else NotSatisfied, false)
         | _ => (retval, false)
         end
  end.

(** src/PetriEngine/Reachability/ReachabilitySearch.cpp:98-190, reachable(): the search
    strategies and their waiting lists (random walk is separate). *)
Inductive strategy :=
| BFS (shuf : nat -> list nat -> list nat)
| DFS
| RDFS (shuf : nat -> list nat -> list nat)
| HEUR
| RPFS (coin : nat -> bool) (pot0 : list N) (dist0 : N).
Definition queue_of (s : strategy) : wlist :=
  match s with
  | BFS f => bfs_list f
  | DFS => dfs_list
  | RDFS f => rdfs_list f
  | HEUR => heur_list
  | RPFS c p d => pot_list c p d
  end.
Definition is_rpfs (s : strategy) : bool := match s with RPFS _ _ _ => true | _ => false end.
