(** Model of trace abstraction refinement: src/PetriEngine/TAR/TARReachability.cpp,
    TraceSet.cpp, Solver.cpp, RangeContext.cpp, RangeEvalContext.cpp and
    include/PetriEngine/TAR/TARAutomata.h.

    Modelled for reachability queries without place bounds.  The comparisons < and <= that
    are not compiled to interval constraints (CompareConjunction) and boolean constants are
    not modelled: the visitors answer [UB] on them.  Printing and timing are left out. *)
From Verif Require Import Base NetModel PqlSyntax PqlModel RangeSpec RangeModel AntiModel StubModel QueryModel.
Set Implicit Arguments.

(** std::set<size_t> as a strictly ascending list *)
Fixpoint sins (x : nat) (l : list nat) : list nat :=
  match l with
  | [] => [x]
  | y :: l' => if x <? y then x :: l else if Nat.eqb x y then l else y :: sins x l'
  end.
Definition sins_all (xs l : list nat) : list nat := fold_left (fun l x => sins x l) xs l.

(** the entry of find_or_add changed by an operation that can fail *)
Definition v_mod (l : rvec) (p : nat) (f : range -> res range) : res rvec :=
  r <- f (match lookup l p with Some r => r | None => (0%N, rmax) end) ;;
  Ok (at_place l p (fun _ => r)).
(** whether a vector restricts a place (operator[] and unbound) *)
Definition bound (l : rvec) (p : nat) : bool :=
  match lookup l p with Some r => negb (unbound r) | None => false end.

Section Net.
  Variable net : cnet.
  Notation np := (cn_places net).
  Notation nt := (cn_ntrans net).
  Notation pre := (in_slice net).
  Notation post := (out_slice net).
  Notation ev := (evaluate (net_deadb net)).

  (** * The automaton (TARAutomata.h, TraceSet.cpp) *)

  (** TARAutomata.h:30-112, an edge symbol with its targets, and a state; 0 is the symbol of
      the query, t+1 of transition t.  [simulators] is only written and left out. *)
  Record astate := mkA { a_int : rvec; a_edges : list (nat * list nat); a_sim : list nat }.
  Record tset := mkTs { ts_states : list astate; ts_init : list nat }.
  Definition int_of (T : tset) (i : nat) : rvec := a_int (nth i (ts_states T) (mkA [] [] [])).

  (** TARAutomata.h:66-81, AutomataEdge::add *)
  Definition edge_add (i : nat) (to : list nat) : list nat :=
    match to with
    | 0 :: _ => to
    | _ => if Nat.eqb i 0 then [0] else sins i to
    end.
  (** TARAutomata.h:148-169, add_edge *)
  Fixpoint edges_add (e i : nat) (l : list (nat * list nat)) : list (nat * list nat) :=
    match l with
    | [] => [(e, edge_add i [])]
    | (f, to) :: l' =>
      if e <? f then (e, edge_add i []) :: l
      else if Nat.eqb e f then (f, edge_add i to) :: l'
      else (f, to) :: edges_add e i l'
    end.
  Definition add_edge (T : tset) (s e i : nat) : tset :=
    match nth_error (ts_states T) s with
    | Some a => mkTs (upd (ts_states T) s (mkA (a_int a) (edges_add e i (a_edges a)) (a_sim a))) (ts_init T)
    | None => T
    end.
  (** TraceSet.cpp:45-77, init *)
  Definition false_range : rvec := map (fun p => (p, (0%N, 0%N))) (seq 0 np).
  Definition ts_new : tset := mkTs [mkA false_range [] [1]; mkA [] [] []] [1].
  (** TraceSet.cpp:88-95, minimize *)
  Definition sim_of (T : tset) (i : nat) : list nat := a_sim (nth i (ts_states T) (mkA [] [] [])).
  Definition minimize (T : tset) (org : list nat) : list nat :=
    fold_left (fun m i => filter (fun x => negb (existsb (Nat.eqb x) (sim_of T i))) m) org org.
  (** TraceSet.cpp:97-102, copyNonChanged *)
  Definition copy_non_changed (T : tset) (from : list nat) (writes : list nat) (to : list nat) : list nat :=
    fold_left (fun to p => if restricts (int_of T p) writes then to else sins p to) from to.
  (** TraceSet.cpp:104-111, maximize *)
  Definition maximize (T : tset) (org : list nat) : list nat :=
    fold_left (fun m i => sins_all (sim_of T i) m) org (sins 1 org).
  (** TraceSet.cpp:245-272, computeSimulation for a new last state *)
  Definition add_state (T : tset) (v : rvec) : tset :=
    let n := length (ts_states T) in
    let olds := map (fun a => if snd (RangeModel.compare (a_int a) v) then mkA (a_int a) (a_edges a) (sins n (a_sim a)) else a) (ts_states T) in
    let sim := filter (fun i => fst (RangeModel.compare (int_of T i) v)) (seq 0 n) in
    mkTs (olds ++ [mkA v [] sim]) (ts_init T).
  (** the key lookup of _intmap, a map ordered by operator< *)
  Fixpoint find_state (l : list astate) (i : nat) (v : rvec) : option nat :=
    match l with
    | [] => None
    | a :: l' => if negb (v_less (a_int a) v) && negb (v_less v (a_int a)) then Some i else find_state l' (S i) v
    end.
  (** TraceSet.cpp:180-236, the edges of a new state: transitions that cannot fire in the
      predicate, and transitions that keep it although they touch it *)
  Definition first_tokens (l : list invariant) (p : nat) : N :=
    match find (fun iv => Nat.eqb (iv_place iv) p) l with Some iv => iv_tokens iv | None => 0%N end.
  Definition change_ok (r : range) (change : Z) : bool :=
    if (change <? 0)%Z && negb (no_lower r) then false
    else if (0 <? change)%Z && negb (no_upper r) then false else true.
  (** the loop over the preset: (some arc disables, ok, changes) *)
  Fixpoint keep_pre (v : rvec) (t : nat) (l : list invariant) (dis changes : bool) : bool * bool * bool :=
    match l with
    | [] => (dis, true, changes)
    | iv :: l' =>
      match lookup v (iv_place iv) with
      | None => keep_pre v t l' dis changes
      | Some r =>
        let dis := dis || (snd r <? iv_tokens iv)%N in
        if change_ok r (Z.of_N (first_tokens (post t) (iv_place iv)) - Z.of_N (iv_tokens iv))
        then keep_pre v t l' dis true else (dis, false, true)
      end
    end.
  Fixpoint keep_post (v : rvec) (t : nat) (l : list invariant) (ok changes : bool) : bool * bool :=
    match l with
    | [] => (ok, changes)
    | iv :: l' =>
      match lookup v (iv_place iv) with
      | None => if ok then keep_post v t l' ok changes else (ok, changes)
      | Some r =>
        let ok := ok && change_ok r (Z.of_N (iv_tokens iv) - Z.of_N (first_tokens (pre t) (iv_place iv))) in
        if ok then keep_post v t l' ok true else (ok, true)
      end
    end.
  Definition keep_edges (v : rvec) (s : nat) (T : tset) : tset :=
    fold_left (fun T t =>
      let x := keep_pre v t (pre t) false false in
      let T := if fst (fst x) then add_edge T s (S t) 0 else T in
      let y := keep_post v t (post t) (snd (fst x)) (snd x) in
      if fst y && snd y then add_edge T s (S t) s else T) (seq 0 nt) T.
  (** TraceSet.cpp:113-243, stateForPredicate; the initial marking is _net.initial() *)
  Definition state_for (T : tset) (v0 : rvec) : tset * nat :=
    let v := compact v0 in
    if is_true v then (T, 1)
    else if is_false np v then (T, 0)
    else match find_state (ts_states T) 0 v with
         | Some i => (T, i)
         | None =>
           let s := length (ts_states T) in
           let T1 := add_state T v in
           let ok := forallb (fun e => let x := nth (fst e) (cn_init net) 0%N in
                                       negb (snd (snd e) <? x)%N && negb (x <? fst (snd e))%N) v in
           let T2 := if ok then mkTs (ts_states T1) (sins s (ts_init T1)) else T1 in
           (keep_edges v s T2, s)
         end.
  (** TraceSet.cpp:274-303, follow: [None] if a target is the false state *)
  Definition targets (T : tset) (i symbol : nat) : list nat :=
    match find (fun e => Nat.eqb (fst e) symbol) (a_edges (nth i (ts_states T) (mkA [] [] []))) with Some e => snd e | None => [] end.
  Fixpoint follow (T : tset) (from : list nat) (symbol : nat) (next : list nat) : option (list nat) :=
    match from with
    | [] => Some next
    | i :: from' =>
      if Nat.eqb i 0 then follow T from' symbol next
      else match targets T i symbol with
           | 0 :: _ => None
           | to => follow T from' symbol (sins_all to next)
           end
    end.
  (** TraceSet.cpp:314-354, addTrace *)
  Fixpoint add_trace_from (T : tset) (last : nat) (inter : list (rvec * nat)) : tset :=
    match inter with
    | [] => T
    | [(_, e)] => add_edge T last e 0
    | (_, e) :: (((v, _) :: _) as rest) =>
      let x := state_for T v in
      add_trace_from (add_edge (fst x) last e (snd x)) (snd x) rest
    end.
  Definition add_trace (T : tset) (inter : list (rvec * nat)) : tset :=
    match inter with
    | [] => T
    | (v, _) :: _ => let x := state_for T v in add_trace_from (fst x) (snd x) inter
    end.

  (** * Explaining why a trace does not satisfy the query (RangeContext.cpp) *)
  Variable query : cond.
  Variable inq : list bool.     (* Solver::_inq *)
  (** Solver.cpp:26-47, _use_count *)
  Definition uses (p : nat) : N :=
    fold_left (fun n t => fold_left (fun n iv => if Nat.eqb (iv_place iv) p then (n + N.of_nat nt)%N else n) (pre t) n) (seq 0 nt)
      (if nth p inq false then 1 else 0)%N.
  Definition uses_sum (v : rvec) : N := sumN (map (fun e => uses (fst e)) v).

  Section Context.
    Variable mark : list N.       (* _base and _marking *)
    Variable dirty : list bool.
    Definition is_dirty (p : nat) : bool := nth p dirty false.
    (** RangeContext.cpp:259-318, CompareConjunction: the conjunction; [pr] with its priority *)
    Fixpoint rc_conj (cs : list cons) (v : rvec) (pr : option (nat * range * N)) : rvec * bool :=
      match cs with
      | [] =>
        match pr with
        | None => (v, true)
        | Some (p, r, _) => (compact (at_place v p (fun _ => r)), false)
        end
      | c :: cs' =>
        let p := c_place c in
        let base := nth p mark 0%N in
        let better := negb (is_dirty p) && ((match pr with Some (_, n) => n | None => 0 end) <? uses p)%N in
        if (base <? c_lower c)%N then
          let v := find_or_add v p in
          if (v_upper v p <=? c_lower c - 1)%N then (v, false)
          else rc_conj cs' v (if better then Some (p, (0, c_lower c - 1), uses p)%N else pr)
        else if (c_upper c <? base)%N then
          let v := find_or_add v p in
          if (c_upper c + 1 <=? v_lower v p)%N then (v, false)
          else rc_conj cs' v (if better then Some (p, (c_upper c + 1, rmax), uses p)%N else pr)
        else rc_conj cs' v pr
      end.
    (** ... and the disjunction (negated): the entry is overwritten with the constraint, as
        the default-constructed [pr] restricts nothing *)
    Fixpoint rc_disj (cs : list cons) (v : rvec) : rvec * bool :=
      match cs with
      | [] => (v, false)
      | c :: cs' =>
        let v := at_place v (c_place c) (fun _ => (N.max (c_lower c) 0, N.min (c_upper c) rmax)%N) in
        if is_dirty (c_place c) then (v, true) else rc_disj cs' v
      end.
    (** RangeContext.cpp:207-257, DeadlockCondition: the enabled transition of greatest use *)
    Fixpoint rc_dead_cand (ts : list nat) (priority : N) (cand : nat) (dirt : bool) : N * nat * bool :=
      match ts with
      | [] => (priority, cand, dirt)
      | t :: ts' =>
        let dirt := dirt || existsb (fun iv => is_dirty (iv_place iv)) (pre t) in
        let ok := forallb (fun iv => negb (nth (iv_place iv) mark 0 <? iv_tokens iv)%N && negb (is_dirty (iv_place iv))) (pre t) in
        let sum := sumN (map (fun iv => uses (iv_place iv)) (pre t)) in
        if ok && (priority <? sum)%N then rc_dead_cand ts' sum t dirt else rc_dead_cand ts' priority cand dirt
      end.
    Definition rc_dead (v : rvec) : rvec * bool :=
      let '(priority, cand, dirt) := rc_dead_cand (seq 0 nt) 0 0 false in
      if negb (priority =? 0)%N then
        (fold_left (fun v iv => at_place v (iv_place iv) (fun r => (N.max (iv_tokens iv) (fst r), snd r))) (pre cand) v, false)
      else (v, dirt).
    (** RangeContext.cpp:58-112, AndCondition: the explanation of one false operand, with the
        fewest places *)
    Definition rc_better (best : option (rvec * N)) (v : rvec) : option (rvec * N) :=
      match best with
      | None => Some (v, uses_sum v)
      | Some (w, s) =>
        if length v <? length w then Some (v, uses_sum v)
        else if Nat.eqb (length v) (length w) && (s <? uses_sum v)%N then Some (v, uses_sum v) else best
      end.
    (** RangeContext.cpp:24-205, the visitor; the vector and whether it gave up (_is_dirty).
        isSatisfied() is the value of the last evaluation, which was on [mark]. *)
    Fixpoint rc (c : cond) (v : rvec) {struct c} : res (rvec * bool) :=
      match c with
      | CNot _ => Throw
      | CAnd l =>
        match ev mark c with
        | RTrue => Ok (v, false)
        | _ =>
          r <- (fix loop (l : list cond) (best : option (rvec * N)) (cur : rvec) : res (option (rvec * N) * rvec) :=
                  match l with
                  | [] => Ok (best, cur)
                  | e :: l' =>
                    match ev mark e with
                    | RFalse =>
                      x <- rc e v ;;
                      if snd x then loop l' best (fst x) else loop l' (rc_better best (fst x)) (fst x)
                    | _ => loop l' best cur
                    end
                  end) l None v ;;
          match fst r with
          | Some (w, _) => Ok (w, false)
          | None => Ok (snd r, true)
          end
        end
      | COr l =>
        (fix loop (l : list cond) (v : rvec) : res (rvec * bool) :=
           match l with
           | [] => Ok (v, false)
           | e :: l' => x <- rc e v ;; if snd x then Ok x else loop l' (fst x)
           end) l v
      | CCmp OpEq _ _ | CCmp OpNe _ _ => Ok (v, true)
      | CDead => Ok (rc_dead v)
      | CConj false cs => Ok (rc_conj cs v None)
      | CConj true cs => Ok (rc_disj cs v)
      | _ => UB
      end.
  End Context.

  (** * Evaluating the query on a set of markings (RangeEvalContext.cpp) *)
  Section Eval.
    Variable rngs : rvec.
    (** RangeEvalContext.cpp:148-217, CompareConjunction; negated: whether some constraint can
        be violated, and the added restrictions *)
    Fixpoint re_disj (cs : list cons) (s : rvec) : bool * rvec :=
      match cs with
      | [] => (false, s)
      | c :: cs' =>
        match lookup rngs (c_place c) with
        | None => (true, s)
        | Some r =>
          if (snd r <? c_lower c)%N || (c_upper c <? fst r)%N then (true, s)
          else re_disj cs' (v_and_one s (c_place c) (c_lower c, c_upper c))
        end
      end.
    Fixpoint re_conj (cs : list cons) (s : rvec) (tmp : option (nat * range)) : bool * rvec :=
      match cs with
      | [] =>
        match tmp with
        | Some (p, r) => (false, v_and_one s p r)
        | None => (true, s)
        end
      | c :: cs' =>
        let p := c_place c in
        match lookup rngs p with
        | None => re_conj cs' s tmp
        | Some r =>
          if (fst r <=? c_upper c)%N && (c_lower c <=? snd r)%N then re_conj cs' s tmp
          else if (snd r <? c_lower c)%N then
            if (v_upper s p <? c_lower c)%N then (false, s)
            else re_conj cs' s
                   (match tmp with
                    | None => Some (p, (0, c_lower c - 1)%N)
                    | Some (q, x) => if (uses q <? uses p)%N && negb (no_upper x) then Some (p, (0, c_lower c - 1)%N) else tmp
                    end)
          else
            if (c_lower c <? v_lower s p)%N then (false, s)
            else re_conj cs' s
                   (match tmp with
                    | None => Some (p, (c_upper c + 1, rmax)%N)
                    | Some (q, x) => if (uses q <? uses p)%N || negb (no_upper x) then Some (p, (c_upper c + 1, rmax)%N) else tmp
                    end)
        end
      end.
    Fixpoint re (c : cond) (s : rvec) {struct c} : res (bool * rvec) :=
      match c with
      | CAnd l =>
        r <- (fix loop (l : list cond) (cur : rvec) (best : option rvec) : res (option rvec) :=
                match l with
                | [] => Ok best
                | e :: l' =>
                  x <- re e cur ;;
                  if fst x then loop l' (snd x) best
                  else
                    y <- re e (snd x) ;;
                    loop l' s (match best with
                               | None => Some (snd y)
                               | Some b => if length (snd y) <? length b then Some (snd y) else best
                               end)
                end) l s None ;;
        match r with
        | Some b => Ok (false, b)
        | None => Ok (true, s)
        end
      | COr l =>
        (fix loop (l : list cond) (cur : rvec) : res (bool * rvec) :=
           match l with
           | [] => Ok (false, cur)
           | e :: l' => x <- re e cur ;; if fst x then Ok (true, s) else loop l' (snd x)
           end) l s
      | CCmp OpEq _ _ | CCmp OpNe _ _ | CDead => Ok (true, s)
      | CConj true cs => Ok (re_disj cs s)
      | CConj false cs => Ok (re_conj cs s None)
      | _ => UB
      end.
  End Eval.

  (** * The solver (Solver.cpp) *)

  (** Solver.cpp:169-205, the flush backwards through the transitions; the list starts with
      the entry before [nxt] *)
  Fixpoint flush_post (l : list invariant) (v : rvec) : res rvec :=
    match l with
    | [] => Ok v
    | iv :: l' =>
      match lookup v (iv_place iv) with
      | None => flush_post l' v
      | Some r =>
        if (snd r <? iv_tokens iv)%N then Ok v
        else w <- v_mod v (iv_place iv) (fun r => r_sub r (iv_tokens iv)) ;; flush_post l' w
      end
    end.
  Fixpoint flush_pre (l : list invariant) (v : rvec) : res rvec :=
    match l with
    | [] => Ok v
    | iv :: l' =>
      match lookup v (iv_place iv) with
      | None => flush_pre l' v
      | Some _ => w <- v_mod v (iv_place iv) (fun r => r_add r (iv_tokens iv)) ;; flush_pre l' w
      end
    end.
  Fixpoint flush (nxt : rvec) (l : list (rvec * nat)) : res (list (rvec * nat)) :=
    match l with
    | [] => Ok []
    | (_, e) :: l' =>
      v1 <- flush_post (post (e - 1)) nxt ;;
      let v1 := compact v1 in
      if is_true v1 then Ok ((v1, e) :: l')
      else
        v2 <- flush_pre (pre (e - 1)) v1 ;;
        r <- flush v2 l' ;;
        Ok ((v2, e) :: r)
    end.
  (** Solver.cpp:222-258, one step of the forward approximation: [inter] has the last entry
      first.  The additions to lower bounds do not wrap at 2^32 here. *)
  Definition free_place (p : nat) (v : rvec) : rvec :=
    match lookup v p with
    | None => v
    | Some r => compact (at_place v p (fun r => (0%N, snd r)))
    end.
  Fixpoint fwd_pre (l : list invariant) (range : rvec) (inter : list (rvec * nat)) : rvec * list (rvec * nat) :=
    match l with
    | [] => (range, inter)
    | iv :: l' =>
      let p := iv_place iv in
      if nth p inq false then
        match lookup range p with
        | None => fwd_pre l' range inter
        | Some r =>
          if (fst r <=? iv_tokens iv)%N
          then fwd_pre l' (free_place p range) (map (fun x => (free_place p (fst x), snd x)) inter)
          else fwd_pre l' (at_place range p (fun r => (fst r - iv_tokens iv, snd r)%N)) inter
        end
      else fwd_pre l' range inter
    end.
  Definition fwd_post (l : list invariant) (range : rvec) : rvec :=
    fold_left (fun v iv => if nth (iv_place iv) inq false then at_place v (iv_place iv) (fun r => (fst r + iv_tokens iv, snd r)%N) else v) l range.
  Fixpoint free_from (es : list nat) (back : rvec) (inter : list (rvec * nat)) : res (option (list (rvec * nat))) :=
    match es with
    | [] => Ok None
    | e :: es' =>
      if Nat.eqb e 0 then
        x <- re back query [] ;;
        if negb (fst x) && negb (is_false np (snd x)) then
          let c := compact (snd x) in
          r <- flush c inter ;;
          match rev r with
          | (v, _) :: _ => if is_true v then Ok (Some (rev ((c, 0) :: r))) else Ok None
          | [] => UB
          end
        else Ok None
      else
        let y := fwd_pre (pre (e - 1)) back ((back, e) :: inter) in
        free_from es' (compact (fwd_post (post (e - 1)) (fst y))) (snd y)
    end.
  (** Solver.cpp:84-260, findFree: the steps from the last but one down to 1 *)
  Definition free_start (e : nat) : rvec :=
    compact (fold_left (fun v iv => if nth (iv_place iv) inq false then at_place v (iv_place iv) (fun r => (iv_tokens iv, snd r)) else v) (post (e - 1)) []).
  Fixpoint find_free_loop (trace : list nat) (step : nat) : res (option (list (rvec * nat))) :=
    match step with
    | 0 => Ok None
    | S k =>
      let e := nth step trace 0 in
      let b := free_start e in
      if is_true b then find_free_loop trace k
      else
        r <- free_from (skipn (S step) trace) b [([], e)] ;;
        match r with
        | Some i => Ok (Some i)
        | None => find_free_loop trace k
        end
    end.
  Definition find_free (trace : list nat) : res (option (list (rvec * nat))) := find_free_loop trace (length trace - 2).

  (** Solver.cpp:262-404, findFailure; token counts are integers, and not cut to 32 bits when
      the query is evaluated.  [first] is the first transition that could not fire with the
      marking before it (_failm). *)
  Definition zget (m : list Z) (p : nat) : Z := nth p m 0%Z.
  Definition zadd (m : list Z) (p : nat) (z : Z) : list Z := upd m p (zget m p + z)%Z.
  Definition zfire (t : nat) (m : list Z) : list Z :=
    fold_left (fun m iv => zadd m (iv_place iv) (Z.of_N (iv_tokens iv))) (post t)
      (fold_left (fun m iv => zadd m (iv_place iv) (- Z.of_N (iv_tokens iv))) (pre t) m).
  Inductive failure :=
  | FSat                                          (* the trace satisfies the query *)
  | FTrans (i : nat) (failm : list Z)             (* transition at position i *)
  | FQuery (i : nat) (mark : list N) (neg : list bool).   (* the query; places below zero *)
  Definition short (m : list Z) (iv : invariant) : bool := (zget m (iv_place iv) <? Z.of_N (iv_tokens iv))%Z.
  Fixpoint find_failure (to_end : bool) (es : list nat) (i : nat) (m : list Z) (first : option (nat * list Z)) : res failure :=
    match es with
    | [] => UB
    | e :: es' =>
      if Nat.eqb e 0 then
        let mark := map Z.to_N m in
        match ev mark query with
        | RTrue => match first with Some (j, fm) => Ok (FTrans j fm) | None => Ok FSat end
        | _ => Ok (FQuery i mark (map (fun z => (z <? 0)%Z) m))
        end
      else
        let t := e - 1 in
        let bad := filter (short m) (pre t) in
        let first := match first with Some _ => first | None => match bad with [] => None | _ => Some (i, m) end end in
        if negb to_end && existsb (fun iv => nth (iv_place iv) inq false) bad
        then match first with Some (j, fm) => Ok (FTrans j fm) | None => UB end
        else find_failure to_end es' (S i) (zfire t m) first
    end.

  (** Solver.cpp:406-455, computeTerminal *)
  Definition term_trans (t : nat) (failm : list Z) : rvec :=
    let r := fold_left (fun pr iv => if short failm iv && (0 <? uses (iv_place iv))%N then Some (iv_place iv, (0, iv_tokens iv - 1)%N) else pr) (pre t) None in
    match r with
    | Some (p, x) => [(p, x)]
    | None => [(N.to_nat rmax, (0%N, rmax))]
    end.
  Definition terminal (f : failure) (trace : list nat) (dirty : list bool) : res (rvec * bool) :=
    match f with
    | FSat => UB
    | FTrans i failm => Ok (term_trans (nth i trace 0 - 1) failm, false)
    | FQuery _ mark _ => x <- rc mark dirty query [] ;; if snd x then Ok x else Ok (compact (fst x), false)
    end.

  (** Solver.cpp:457-547, computeHoare for one transition: the loop over the preset up to a
      place, the loop over the postset, the rest of the preset.  [inl]: the place whose bound
      the transition exceeds. *)
  Fixpoint hoare_pre (nxt : rvec) (stop : option nat) (l : list invariant) (v : rvec) : res (rvec * list invariant) :=
    match l with
    | [] => Ok (v, [])
    | iv :: l' =>
      if match stop with Some q => iv_place iv <? q | None => true end then
        if bound nxt (iv_place iv)
        then w <- v_mod v (iv_place iv) (fun r => r_add r (iv_tokens iv)) ;; hoare_pre nxt stop l' w
        else hoare_pre nxt stop l' v
      else Ok (v, l)
    end.
  Definition hoare_sub (v : rvec) (p : nat) (k : N) : res (rvec * nat + rvec) :=
    if (v_upper v p <? k)%N then Ok (inl (find_or_add v p, p))
    else w <- v_mod v p (fun r => r_sub r k) ;; Ok (inr w).
  Fixpoint hoare_post (nxt : rvec) (l ps : list invariant) (v : rvec) : res (rvec * nat + rvec) :=
    match l with
    | [] => x <- hoare_pre nxt None ps v ;; Ok (inr (fst x))
    | a :: l' =>
      let p := iv_place a in
      if bound nxt p then
        x <- hoare_pre nxt (Some p) ps v ;;
        match snd x with
        | b :: ps' =>
          if Nat.eqb (iv_place b) p then
            if (iv_dir b <? 0)%Z then
              w <- v_mod (fst x) p (fun r => r_add r (iv_tokens b - iv_tokens a)) ;; hoare_post nxt l' ps' w
            else
              y <- hoare_sub (fst x) p (iv_tokens a - iv_tokens b) ;;
              match y with inl z => Ok (inl z) | inr w => hoare_post nxt l' ps' w end
          else
            y <- hoare_sub (fst x) p (iv_tokens a) ;;
            match y with inl z => Ok (inl z) | inr w => hoare_post nxt l' (snd x) w end
        | [] =>
          y <- hoare_sub (fst x) p (iv_tokens a) ;;
          match y with inl z => Ok (inl z) | inr w => hoare_post nxt l' [] w end
        end
      else hoare_post nxt l' ps v
    end.
  (** ... backwards over the transitions of the trace (the last one first): the ranges, the
      places found dirty, and whether it succeeded *)
  Fixpoint hoare (es : list nat) (nxt : rvec) (acc : list (rvec * nat)) : res (list (rvec * nat) * list nat * bool) :=
    match es with
    | [] => Ok (acc, [], true)
    | e :: es' =>
      x <- hoare_post nxt (post (e - 1)) (pre (e - 1)) nxt ;;
      match x with
      | inr v => hoare es' v ((v, e) :: acc)
      | inl (v, p) => Ok (repeat ([], 0) (length es') ++ (v, 0) :: acc, [p], false)
      end
    end.

  (** Solver.cpp:549-615, check.  The trace is a list of edge symbols ending with 0. *)
  Definition fail_pos (f : failure) : nat := match f with FSat => 0 | FTrans i _ => i | FQuery i _ _ => i end.
  Definition set_dirty (d : list bool) (ps : list nat) : list bool := fold_left (fun d p => upd d p true) ps d.
  Definition note_neg (f : failure) (d : list bool) : list bool :=
    match f with FQuery _ _ neg => map (fun x => fst x || snd x) (combine d neg) | _ => d end.
  Definition init_z : list Z := map Z.of_N (cn_init net).
  Definition ranges_of (trace : list nat) (f : failure) (term : rvec) : res (list (rvec * nat) * list nat * bool) :=
    let i := fail_pos f in
    hoare (rev (firstn i trace)) term [(term, nth i trace 0)].
  Definition check_last (trace : list nat) (T : tset) : res tset :=
    f <- find_failure false trace 0 init_z None ;;
    x <- terminal f trace (repeat false np) ;;
    h <- ranges_of trace f (fst x) ;;
    Ok (add_trace T (fst (fst h))).
  Fixpoint check_loop (fuel : nat) (trace : list nat) (ok : bool) (dirty : list bool) (T : tset) : res tset :=
    match fuel with
    | 0 => NoFuel
    | S k =>
      f <- find_failure true trace 0 init_z None ;;
      let dirty := note_neg f dirty in
      if negb ok then Ok T
      else
        x <- terminal f trace dirty ;;
        if snd x then check_last trace T
        else
          h <- ranges_of trace f (fst x) ;;
          let good := snd h in
          let T1 := if good then add_trace T (fst (fst h)) else T in
          if good && negb (Nat.eqb (fail_pos f) (length trace - 1)) then Ok T1
          else
            let dirty := set_dirty dirty (snd (fst h)) in
            let places := map fst (fst x) in
            if existsb (fun p => negb (nth p dirty false)) places
            then check_loop k trace true (set_dirty dirty places) T1
            else check_last trace T1
    end.
  (** the result: satisfied, and the automaton *)
  Definition check (trace : list nat) (T : tset) : res (bool * tset) :=
    fr <- find_free trace ;;
    let T0 := match fr with Some i => add_trace T i | None => T end in
    f <- find_failure true trace 0 init_z None ;;
    match f with
    | FSat => Ok (true, T0)
    | _ =>
      let dirty := note_neg f (repeat false np) in
      x <- terminal f trace dirty ;;
      if snd x then r <- check_loop (S np) trace false dirty T0 ;; Ok (false, r)
      else
        h <- ranges_of trace f (fst x) ;;
        let T1 := if snd h then add_trace T0 (fst (fst h)) else T0 in
        r <- check_loop (S (S np)) trace true (set_dirty dirty (snd (fst h))) T1 ;;
        Ok (false, r)
    end.

  (** * The search (TARReachability.cpp) *)
  (** TARAutomata.h:246-332, state_t: the random offset, the edge counter, the interpolants *)
  Record tstate := mkS { s_off : nat; s_cnt : nat; s_int : list nat }.
  Definition edge_cnt (s : tstate) : nat := match s_cnt s with 0 => 0 | S k => S ((k + s_off s) mod nt) end.
  Definition next_edge (s : tstate) : tstate := mkS (s_off s) (S (s_cnt s)) (s_int s).
  Definition s_done (s : tstate) : bool := nt <? s_cnt s.
  (** TARReachability.cpp:68-84, popDone; the head of the list is the last of the trace *)
  Definition pop_done (w : list tstate) : list tstate :=
    match w with
    | [] => []
    | s :: w' =>
      if s_done s then
        match w' with
        | [] => []
        | p :: w'' => (fix pop (p : tstate) (w : list tstate) : list tstate :=
                         if s_done (next_edge p) then match w with [] => [] | q :: w' => pop q w' end
                         else next_edge p :: w) p w''
        end
      else w
    end.
  (** TARReachability.cpp:393-412, addNonChanging: the sorted places of the arcs *)
  Fixpoint sort_in (x : nat) (l : list nat) : list nat :=
    match l with [] => [x] | y :: l' => if x <=? y then x :: l else y :: sort_in x l' end.
  Definition sorted_places (t : nat) : list nat :=
    fold_right sort_in [] (map iv_place (pre t) ++ map iv_place (post t)).
  (** TARReachability.cpp:317-349, doStep: [None] if the automaton accepts *)
  Definition do_step (T : tset) (s : tstate) : option (list nat) :=
    let e := edge_cnt s in
    match follow T (s_int s) e [1] with
    | None => None
    | Some next =>
      if Nat.eqb e 0 then Some next
      else Some (maximize T (copy_non_changed T (s_int s) (sorted_places (e - 1)) next))
    end.
  (** TARReachability.cpp:105-202, runTAR with nextEdge (86-103); [rnd] numbers the calls of
      std::rand.  The result: finished, satisfied, the automaton, the number of calls. *)
  Section Run.
    Variable rnd : nat -> nat.
    Variable use_trans : list bool.
    Fixpoint run_loop (fuel : nat) (T : tset) (w : list tstate) (checked : chains) (k : nat) : res (bool * bool * tset * nat) :=
      match fuel with
      | 0 => NoFuel
      | S f =>
        match w with
        | [] => Ok (true, false, T, k)
        | s :: w' =>
          if s_done s then run_loop f T (pop_done w) checked k
          else if negb (nth (edge_cnt s) use_trans false) then run_loop f T (next_edge s :: w') checked k
          else
            match do_step T s with
            | None => run_loop f T (next_edge s :: w') checked k
            | Some next =>
              if Nat.eqb (edge_cnt s) 0 then
                r <- check (map edge_cnt (rev w)) T ;;
                Ok (fst r, fst r, snd r, k)
              else if subsumed checked 0 next then run_loop f T (next_edge s :: w') checked k
              else run_loop f T (mkS (rnd k) 0 next :: w) (fst (insert checked 0 (minimize T next))) (S k)
            end
        end
      end.
    Definition run_tar (fuel : nat) (T : tset) (k : nat) : res (bool * bool * tset * nat) :=
      run_loop fuel T [mkS (rnd k) 0 (maximize T (ts_init T))] [] (S k).
  End Run.
  (** TARReachability.cpp:209-242, update_use(false): the transitions and places in use, and
      whether a transition was added *)
  Definition touches (use_place : list bool) (t : nat) : bool :=
    existsb (fun iv => nth (iv_place iv) use_place false) (pre t ++ post t).
  Definition update_use (use_trans use_place : list bool) : list bool * list bool * bool :=
    let new := filter (fun t => negb (nth (S t) use_trans false) && touches use_place t) (seq 0 nt) in
    (fold_left (fun u t => upd u (S t) true) new use_trans,
     fold_left (fun u t => fold_left (fun u iv => upd u (iv_place iv) true) (pre t) u) new use_place,
     match new with [] => false | _ => true end).
  (** TARReachability.cpp:204-315, tryReach, with a new automaton (removeEdges then does nothing) *)
  Fixpoint try_loop (rnd : nat -> nat) (fuel steps : nat) (T : tset) (use_trans use_place : list bool) (k : nat) : res bool :=
    match fuel with
    | 0 => NoFuel
    | S f =>
      r <- run_tar rnd use_trans steps T k ;;
      let '(finished, satisfied, T', k') := r in
      if finished then
        if satisfied then Ok true
        else
          let '(ut, up, more) := update_use use_trans use_place in
          if more then try_loop rnd f steps T' ut up k' else Ok false
      else try_loop rnd f steps T' use_trans use_place k'
    end.
  Definition try_reach (rnd : nat -> nat) (fuel steps : nat) : res bool :=
    let '(ut, up, _) := update_use (true :: repeat false nt) inq in
    try_loop rnd fuel steps ts_new ut up 0.
End Net.

(** PlaceUseVisitor.cpp, and TARReachability.cpp:474-484: with a deadlock test every place
    counts *)
Fixpoint cond_places (c : cond) : list nat :=
  match c with
  | CNot c => cond_places c
  | CAnd l | COr l => flat_map cond_places l
  | CConj _ cs => map c_place cs
  | CCmp _ a b =>
    (fix ep (e : expr) : list nat :=
       match e with
       | Lit _ => []
       | Pl p => [p]
       | Ident e | Minus e => ep e
       | Sub e es => ep e ++ flat_map ep es
       | Plus _ ids es | Mul _ ids es => ids ++ flat_map ep es
       end) a ++
    (fix ep (e : expr) : list nat :=
       match e with
       | Lit _ => []
       | Pl p => [p]
       | Ident e | Minus e => ep e
       | Sub e es => ep e ++ flat_map ep es
       | Plus _ ids es | Mul _ ids es => ids ++ flat_map ep es
       end) b
  | _ => []
  end.
Fixpoint has_dead (c : cond) : bool :=
  match c with
  | CDead => true
  | CNot c => has_dead c
  | CAnd l | COr l => existsb has_dead l
  | _ => false
  end.
Definition in_query (net : cnet) (q : cond) : list bool :=
  map (fun p => has_dead q || existsb (Nat.eqb p) (cond_places q)) (seq 0 (cn_places net)).
(** TARReachability.cpp:439-500, reachable for one query: inhibitor arcs are refused, then the
    initial marking is tried, then the search is made.  [rnd] stands for std::rand, [fuel]
    bounds the refinements and [steps] the steps of one search.  true: satisfied. *)
Definition tar (net : cnet) (q : cond) (rnd : nat -> nat) (fuel steps : nat) : res bool :=
  if has_inhib net then Throw
  else match evaluate (net_deadb net) (cn_init net) q with
       | RTrue => Ok true
       | _ => try_reach net q (in_query net q) rnd fuel steps
       end.
