(** Model of the random walk: ReachabilitySearch::tryReachRandomWalk and the state sets
    RandomWalkStateSet and TracableRandomWalkStateSet. *)
From Verif Require Import Base NetSpec NetModel SearchModel.
Set Implicit Arguments.
Local Open Scope N_scope.

(** std::numeric_limits<MarkVal>::max(): the mark of "no candidate" in the first place. *)
Definition no_mark : N := 4294967295.
(** Arithmetic of uint32_t. *)
Definition w32 (x : N) : N := x mod 4294967296.
Definition sub32 (x y : N) : N := w32 (x + (4294967296 - y)).

(** include/PetriEngine/Structures/StateSet.h:235-241, _sumMarking. *)
Definition sum_marking (m : list N) : N := fold_left (fun s x => w32 (s + x)) m 0.

(** StateSet.h:222-233, _initializePotencies (_initPotencyConstant 1,
    _initPotencyMultiplier 60). *)
Definition init_pots (ntrans : nat) (ps : list N) : list N :=
  match ps with
  | [] => repeat 1 ntrans
  | _ => map (fun p => w32 (p * 60 + 1)) ps
  end.

(** StateSet.h:130-139: the new potency of a transition. *)
Definition new_pot (p dist cur : N) : N :=
  if dist <? cur then w32 (p + (cur - dist))
  else if dist - cur <=? sub32 p 1 then sub32 p (dist - cur) else 1.

(** The fields of the state set (StateSet.h:68-73, 196-220, 293-295) and the locals of
    the search.  [v_stack] is _stackTrace, top first; [v_rand] counts the calls of rand. *)
Record wst := mkW {
  v_next : list N;      (* _nextMarking *)
  v_pots : list N;      (* _potencies *)
  v_cdist : N;          (* _currentStepDistance *)
  v_ndist : N;          (* _nextStepDistance *)
  v_total : N;          (* _totalWeight *)
  v_disc : nat;         (* _discovered *)
  v_maxtok : N;         (* _maxTokens *)
  v_bound : list N;     (* _maxPlaceBound *)
  v_stack : list nat;   (* _stackTrace *)
  v_prev : nat;         (* _previousTransition *)
  v_rand : nat;
  v_res : list rslt;    (* results *)
  v_qst : list N;       (* numbers kept in the queries *)
  v_heur : nat;         (* ss.heurquery *)
  v_sat : nat;          (* _satisfyingMarking *)
  v_log : list event;   (* callbacks so far, latest first *)
  v_expanded : nat;
  v_explored : nat
}.

(** ResultPrinter.cpp:207-215, printTrace on a TracableRandomWalkStateSet
    (StateSet.h:274-279): getHistory removes the element it returns and gives the size of
    the rest as the next marking, so the loop ends when the stack is empty; the top of an
    empty stack is undefined. *)
Fixpoint pop_trace (st : list nat) (acc : list nat) : res (list nat * list nat) :=
  match st with
  | [] => UB
  | t :: st' => match st' with [] => Ok (t :: acc, []) | _ => pop_trace st' (t :: acc) end
  end.
Definition walk_trace (sat : nat) (st : list nat) : res (list nat * list nat) :=
  match sat with O => Ok ([], st) | S _ => pop_trace st [] end.

Section Walk.
  Variable qs : list query.
  Variable dist : list N -> N.                     (* distance of the query at the start *)
  Variable handle : nat -> rslt -> rslt * bool.    (* the callback *)
  Variable prints : bool.                          (* the callback prints traces *)
  Variable succ : list N -> list (nat * list N) * res unit.
  Variable k : N.                                  (* _kbound *)
  Variable keep : bool.                            (* W is TracableRandomWalkStateSet *)
  Variable rnd : nat -> N.                         (* what rand() returns *)
  (* r <= threshold, StateSet.h:143-145: the comparison of doubles rand()/RAND_MAX and
     potency/total *)
  Variable accept : N -> N -> N -> bool.

  Definition set_next (s : wst) (m : list N) (nd : N) : wst :=
    mkW m (v_pots s) (v_cdist s) nd (v_total s) (v_disc s) (v_maxtok s) (v_bound s) (v_stack s) (v_prev s)
      (v_rand s) (v_res s) (v_qst s) (v_heur s) (v_sat s) (v_log s) (v_expanded s) (v_explored s).
  Definition set_stack (s : wst) (st : list nat) : wst :=
    mkW (v_next s) (v_pots s) (v_cdist s) (v_ndist s) (v_total s) (v_disc s) (v_maxtok s) (v_bound s) st (v_prev s)
      (v_rand s) (v_res s) (v_qst s) (v_heur s) (v_sat s) (v_log s) (v_expanded s) (v_explored s).
  Definition set_prev (s : wst) (t : nat) : wst :=
    mkW (v_next s) (v_pots s) (v_cdist s) (v_ndist s) (v_total s) (v_disc s) (v_maxtok s) (v_bound s) (v_stack s) t
      (v_rand s) (v_res s) (v_qst s) (v_heur s) (v_sat s) (v_log s) (v_expanded s) (v_explored s).
  Definition set_qst (s : wst) (q : list N) : wst :=
    mkW (v_next s) (v_pots s) (v_cdist s) (v_ndist s) (v_total s) (v_disc s) (v_maxtok s) (v_bound s) (v_stack s) (v_prev s)
      (v_rand s) (v_res s) q (v_heur s) (v_sat s) (v_log s) (v_expanded s) (v_explored s).
  Definition set_heur (s : wst) (h : nat) : wst :=
    mkW (v_next s) (v_pots s) (v_cdist s) (v_ndist s) (v_total s) (v_disc s) (v_maxtok s) (v_bound s) (v_stack s) (v_prev s)
      (v_rand s) (v_res s) (v_qst s) h (v_sat s) (v_log s) (v_expanded s) (v_explored s).
  Definition set_sat (s : wst) (i : nat) : wst :=
    mkW (v_next s) (v_pots s) (v_cdist s) (v_ndist s) (v_total s) (v_disc s) (v_maxtok s) (v_bound s) (v_stack s) (v_prev s)
      (v_rand s) (v_res s) (v_qst s) (v_heur s) i (v_log s) (v_expanded s) (v_explored s).
  Definition inc_explored (s : wst) : wst :=
    mkW (v_next s) (v_pots s) (v_cdist s) (v_ndist s) (v_total s) (v_disc s) (v_maxtok s) (v_bound s) (v_stack s) (v_prev s)
      (v_rand s) (v_res s) (v_qst s) (v_heur s) (v_sat s) (v_log s) (v_expanded s) (S (v_explored s)).
  Definition inc_expanded (s : wst) : wst :=
    mkW (v_next s) (v_pots s) (v_cdist s) (v_ndist s) (v_total s) (v_disc s) (v_maxtok s) (v_bound s) (v_stack s) (v_prev s)
      (v_rand s) (v_res s) (v_qst s) (v_heur s) (v_sat s) (v_log s) (S (v_expanded s)) (v_explored s).

  (** ReachabilitySearch.cpp:77-85, doCallback, and results[i] = r.first; only satisfied
      queries are reported here.  A handler that prints the trace empties the stack. *)
  Definition wcallback (s : wst) (i : nat) : res (wst * bool) :=
    p <- (if prints then walk_trace (v_sat s) (v_stack s) else Ok ([], v_stack s)) ;;
    let e := mkEv i Satisfied (nth i (v_qst s) 0) (Ok (fst p)) (v_expanded s) (v_explored s)
               (v_maxtok s) (v_bound s) in
    let o := handle i Satisfied in
    Ok (mkW (v_next s) (v_pots s) (v_cdist s) (v_ndist s) (v_total s) (v_disc s) (v_maxtok s) (v_bound s)
          (snd p) (v_prev s) (v_rand s) (upd (v_res s) i (fst o)) (v_qst s) (v_heur s) (v_sat s)
          (e :: v_log s) (v_expanded s) (v_explored s), snd o).

  (** ReachabilitySearch.cpp:60-72. *)
  Definition wheur (s : wst) (i : nat) : wst :=
    if Nat.eqb i (v_heur s) && negb (is_unknown (nth i (v_res s) Unknown)) && Nat.leb 2 (length qs) then
      set_heur s (fold_left (fun h n => Nat.modulo (h + n) (length qs)) (seq 1 (length qs - 1)) (v_heur s))
    else s.

  (** ReachabilitySearch.cpp:42-74, the loop of checkQueries from query [i].  The random
      walk is only used with queries (ReachabilitySearch.cpp:158-161). *)
  Fixpoint wcheck_loop (l : list query) (i : nat) (m : list N) (alldone : bool) (s : wst) : res (wst * bool) :=
    match l with
    | [] => Ok (s, alldone)
    | q :: l' =>
      if is_unknown (nth i (v_res s) Unknown) then
        let v := q (nth i (v_qst s) 0) m in
        let s1 := set_qst s (upd (v_qst s) i (fst v)) in
        if snd v then
          r <- wcallback s1 i ;;
          if snd r then Ok (fst r, true)
          else wcheck_loop l' (S i) m alldone (wheur (fst r) i)
        else wcheck_loop l' (S i) m false (wheur s1 i)
      else wcheck_loop l' (S i) m alldone (wheur s i)
    end.
  Definition wcheck (m : list N) (s : wst) : res (wst * bool) := wcheck_loop qs 0 m true s.

  (** StateSet.h:114-152, computeCandidate: [true] if the candidate was chosen. *)
  Definition compute_candidate (m : list N) (t : nat) (s : wst) : res (wst * bool) :=
    let sum := sum_marking m in
    let mt := if v_maxtok s <? sum then sum else v_maxtok s in
    if negb (k =? 0) && (k <? sum) then
      Ok (mkW (v_next s) (v_pots s) (v_cdist s) (v_ndist s) (v_total s) (S (v_disc s)) mt (v_bound s) (v_stack s)
            (v_prev s) (v_rand s) (v_res s) (v_qst s) (v_heur s) (v_sat s) (v_log s) (v_expanded s) (v_explored s), false)
    else
      let bd := map (fun i => N.max (nth i m 0) (nth i (v_bound s) 0)) (seq 0 (length (v_bound s))) in
      let d := dist m in
      p <- rd (v_pots s) t ;;
      let p' := new_pot p d (v_cdist s) in
      let tot := w32 (v_total s + p') in
      let b := accept (rnd (v_rand s)) p' tot in
      Ok (mkW (if b then m else v_next s) (upd (v_pots s) t p') (v_cdist s) (if b then d else v_ndist s) tot
            (S (v_disc s)) mt bd (v_stack s) (v_prev s) (S (v_rand s)) (v_res s) (v_qst s) (v_heur s) (v_sat s)
            (v_log s) (v_expanded s) (v_explored s), b).

  (** StateSet.h:256-258, setHistory, and 285-287, savePreviousTransition: the top of an
      empty stack is undefined. *)
  Definition set_history (s : wst) (t : nat) : res wst :=
    match v_stack s with [] => UB | _ :: st => Ok (set_stack s (t :: st)) end.
  Definition save_previous (s : wst) : res wst :=
    match v_stack s with [] => UB | t :: _ => Ok (set_prev s t) end.

  (** ReachabilitySearch.h:290-320: the loop over the candidates of one step;
      [true]: all done. *)
  Fixpoint candidates (l : list (nat * list N)) (e : res unit) (s : wst) : res (wst * bool) :=
    match l with
    | [] => u <- e ;; Ok (s, false)
    | (t, m) :: l' =>
      let s0 := inc_explored s in
      s1 <- (if keep then s' <- save_previous s0 ;; set_history s' t else Ok s0) ;;
      c <- wcheck m s1 ;;
      if snd c then Ok (fst c, true)
      else
        d <- compute_candidate m t (fst c) ;;
        s2 <- (if keep && negb (snd d) then set_history (fst d) (v_prev (fst d)) else Ok (fst d)) ;;
        candidates l' e s2
    end.

  (** StateSet.h:176-186, nextStep. *)
  Definition next_step (s : wst) : res (option (list N * wst)) :=
    x <- rd (v_next s) 0 ;;
    if x =? no_mark then Ok None
    else
      Ok (Some (v_next s,
        mkW (upd (v_next s) 0 no_mark) (v_pots s) (v_ndist s) (v_ndist s) 0 (v_disc s) (v_maxtok s) (v_bound s)
          (v_stack s) (v_prev s) (v_rand s) (v_res s) (v_qst s) (v_heur s) (v_sat s) (v_log s) (v_expanded s) (v_explored s))).

  (** ReachabilitySearch.h:278-322: one walk, from step [c] (an int) to the depth. *)
  Fixpoint one_walk (fuel : nat) (c depth : N) (s : wst) : res (wst * bool) :=
    match fuel with
    | O => NoFuel
    | S f =>
      if c <? depth then
        o <- next_step s ;;
        match o with
        | None => Ok (s, false)
        | Some (m, s1) =>
          let s2 := if keep then set_stack s1 (0%nat :: v_stack s1) else s1 in
          let g := succ m in
          r <- candidates (fst g) (snd g) s2 ;;
          if snd r then Ok (fst r, true)
          else if c =? 2147483647 then UB
          else one_walk f (c + 1) depth (inc_expanded (fst r))
        end
      else Ok (s, false)
    end.

  (** ReachabilitySearch.h:273-326: walk after walk, without end; StateSet.h:159-164 and
      263-267, newWalk. *)
  Fixpoint walks (fuel wfuel : nat) (init : list N) (idist depth inc : N) (s : wst) : res (wst * bool) :=
    match fuel with
    | O => NoFuel
    | S f =>
      let s1 := set_next (if keep then set_stack s [] else s) init idist in
      r <- one_walk wfuel 0 depth s1 ;;
      if snd r then Ok (fst r, true)
      else walks f wfuel init idist
             (if depth <? 9223372036854775807 - inc then depth + inc else depth) inc (fst r)
    end.

  (** ReachabilitySearch.h:230-326 and the constructor StateSet.h:82-101: the write to
      _nextMarking[0] is outside of the array for a net without places. *)
  Definition random_walk (fuel wfuel : nat) (places ntrans : nat) (init : list N) (rs0 : list rslt)
      (qst0 : list N) (heur : nat) (pots : list N) (depth inc : N) : res (wst * bool) :=
    q <- rd qs heur ;;
    nx <- wr (repeat 0 places) 0 no_mark ;;
    let s0 := mkW nx (init_pots ntrans pots) 0 0 0 1 0 (repeat 0 places) [] 0 0 rs0 qst0 heur 0 [] 0 1 in
    c <- wcheck init s0 ;;
    if snd c then Ok (fst c, true)
    else
      let s1 := if keep then set_sat (fst c) 1 else fst c in
      walks fuel wfuel init (dist init) depth inc s1.
End Walk.

(** The comparison of StateSet.h:143-145 in exact arithmetic, RAND_MAX = 2^31-1:
    rand()/RAND_MAX <= potency/total.  With total 0 both sides are 0/0 or a positive number
    over 0: false for potency 0. *)
Definition accept_exact (r p tot : N) : bool :=
  if tot =? 0 then negb (p =? 0) else r * tot <=? p * 2147483647.
