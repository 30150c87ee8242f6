(** Model of the LTL model checkers: the product of the net and a Büchi automaton, the nested
    depth-first search and Tarjan's algorithm.  HyperLTL (several traces) is not modelled. *)
From Verif Require Import Base NetSpec LtlSpec.
Set Implicit Arguments.

(** ProductState, Structures/ProductState.h: marking and automaton state. *)
Definition pstate := (marking * nat)%type.

Fixpoint meqb (a b : marking) : bool :=
  match a, b with
  | [], [] => true
  | x :: a', y :: b' => N.eqb x y && meqb a' b'
  | _, _ => false
  end.
(** Equality of automaton state and marking, NestedDepthFirstSearch.cpp:160-162. *)
Definition peqb (a b : pstate) : bool := Nat.eqb (snd a) (snd b) && meqb (fst a) (fst b).
(** Membership in a state set.  State ids are modelled by the product states themselves (the
    numbering of BitProductStateSet.h:56-93 is injective as long as the automaton has at most
    2^20 states, see LtlIds.v). *)
Definition pmem (s : pstate) (l : list pstate) : bool := existsb (peqb s) l.
Definition padd (s : pstate) (l : list pstate) : list pstate := if pmem s l then l else s :: l.

(** BuchiAutomaton::guard_valid, Structures/BuchiAutomaton.h:77-101; an atomic proposition is
    assumed to evaluate to true or false (otherwise the code throws). *)
Fixpoint guard_valid (ap : nat -> marking -> bool) (m : marking) (g : bdd) : bool :=
  match g with
  | BFalse => false
  | BTrue => true
  | BNode v lo hi => if ap v m then guard_valid ap m hi else guard_valid ap m lo
  end.

Definition is_true (g : bdd) : bool := match g with BTrue => true | _ => false end.

(** SpoolingSuccessorGenerator::successor_info_t, SpoolingSuccessorGenerator.h:43-66: the
    successors not yet handed out ([None] before the first prepare; the second component is how
    the enumeration ends, a throw when a firing overflows), the automaton state and the product
    state of the last successor, and the last transition ([None]: never written).
    The counters of ResumingSuccessorGenerator.h:30-52 say the same: where the enumeration of
    successors goes on. *)
Record sinfo := mkSI {
  si_queue : option (list (nat * marking) * res unit);
  si_buchi : option nat;
  si_last : option pstate;
  si_trans : option nat
}.
(** initial_suc_info, SpoolingSuccessorGenerator.h:78-81. *)
Definition si_init : sinfo := mkSI None None None None.
(** successor_info_t::fresh, SpoolingSuccessorGenerator.h:61. *)
Definition si_fresh (si : sinfo) : bool :=
  match si_buchi si, si_last si with None, None => true | _, _ => false end.
Definition set_last (si : sinfo) (s : pstate) : sinfo :=
  mkSI (si_queue si) (si_buchi si) (Some s) (si_trans si).

Section Ltl.
  Variable aut : buchi.
  (** Enumeration of the successors of a marking: any order, which may depend on the moment of
      the call, on the marking and on the automaton state (heuristics).
      SpoolingSuccessorGenerator.h:103-139 with EnabledSpooler.h, or
      ResumingSuccessorGenerator.cpp. *)
  Variable order : nat -> marking -> nat -> list (nat * marking) * res unit.
  (** _kbound, StateSet.h:124. *)
  Variable kbound : N.

  Definition inb (m : marking) : bool := (kbound =? 0)%N || negb (kbound <? sumN m)%N.

  (** The spooling of ProductSuccessorGenerator::prepare, ProductSuccessorGenerator.h:120-126:
      automaton edges are skipped up to the first one that leads to the state last returned. *)
  Fixpoint spool (b : nat) (l : list (bdd * nat)) : list (bdd * nat) :=
    match l with
    | [] => []
    | (_, q) :: r => if Nat.eqb q b then r else spool b r
    end.

  (** next_buchi_succ, ProductSuccessorGenerator.h:211-221 (the rest of the edges is only used
      within one call of next). *)
  Fixpoint next_buchi (m : marking) (l : list (bdd * nat)) : option nat :=
    match l with
    | [] => None
    | (g, q) :: r => if guard_valid (ba_ap aut) m g then Some q else next_buchi m r
    end.

  (** The loop of ProductSuccessorGenerator::next over further markings,
      ProductSuccessorGenerator.h:157-166: [q] is the automaton state of the parent, [w] the
      working state. *)
  Fixpoint next_mark (q : nat) (queue : list (nat * marking)) (stop : res unit) (w : pstate) (si : sinfo)
    : res (bool * pstate * sinfo) :=
    match queue with
    | [] => _ <- stop ;; Ok (false, w, mkSI (Some ([], stop)) (si_buchi si) (si_last si) (si_trans si))
    | (t, m') :: r =>
      match next_buchi m' (ba_edges aut q) with
      | Some q' => Ok (true, (m', q'), mkSI (Some (r, stop)) (Some q') (si_last si) (Some t))
      | None => next_mark q r stop (m', snd w) si
      end
    end.

  (** prepare followed by next, ProductSuccessorGenerator.h:111-169 and NestedDepthFirstSearch.cpp:106-111,
      TarjanModelChecker.cpp:247-258: [s] is the parent; the working state is reloaded from the
      last successor when there is one.  A parent without successors is its own successor. *)
  Definition prod_next (k : nat) (s w : pstate) (si : sinfo) : res (bool * pstate * sinfo) :=
    let queue := match si_queue si with Some l => l | None => order k (fst s) (snd s) end in
    let w := match si_last si with Some l => l | None => w end in
    if si_fresh si then
      match fst queue with
      | [] =>
        _ <- snd queue ;;
        match next_buchi (fst s) (ba_edges aut (snd s)) with
        | Some q' => Ok (true, (fst s, q'), mkSI (Some queue) (Some q') (si_last si) (si_trans si))
        | None => Ok (false, s, mkSI (Some queue) (si_buchi si) (si_last si) (si_trans si))
        end
      | (t, m') :: r =>
        match next_buchi m' (ba_edges aut (snd s)) with
        | Some q' => Ok (true, (m', q'), mkSI (Some (r, snd queue)) (Some q') (si_last si) (Some t))
        | None => next_mark (snd s) r (snd queue) (m', snd w) si
        end
      end
    else
      match si_buchi si with
      | None => UB
      | Some b =>
        match next_buchi (fst w) (spool b (ba_edges aut (snd s))) with
        | Some q' => Ok (true, (fst w, q'), mkSI (Some queue) (Some q') (si_last si) (si_trans si))
        | None => next_mark (snd s) (fst queue) (snd queue) w si
        end
      end.

  Definition accepting (s : pstate) : bool := ba_acc aut (snd s).
  (** has_invariant_self_loop, BuchiSuccessorGenerator.h:66-81. *)
  Definition self_loop (s : pstate) : bool :=
    existsb (fun e => Nat.eqb (snd e) (snd s) && is_true (fst e)) (ba_edges aut (snd s)).

  (** make_initial_state, ProductSuccessorGenerator.h:85-102. *)
  Definition initial_states (m0 : marking) : list pstate :=
    map (fun e => (m0, snd e))
      (filter (fun e => guard_valid (ba_ap aut) m0 (fst e)) (ba_edges aut (ba_init aut))).

  (** ** Nested depth-first search, NestedDepthFirstSearch.cpp *)
  (** The state set with its two marker bits, and a clock for the enumeration order. *)
  Record nst := mkNst {
    n_seen : list pstate;
    n_m1 : list pstate;
    n_m2 : list pstate;
    n_clock : nat
  }.
  (** mark, NestedDepthFirstSearch.cpp:72-91; the answer tells whether the marker is new, and is
      [None] when the state exceeds the bound. *)
  Definition mark1 (st : nst) (s : pstate) : nst * option bool :=
    if inb (fst s) then
      (mkNst (padd s (n_seen st)) (padd s (n_m1 st)) (n_m2 st) (n_clock st), Some (negb (pmem s (n_m1 st))))
    else (st, None).
  Definition mark2 (st : nst) (s : pstate) : nst * option bool :=
    if inb (fst s) then
      (mkNst (padd s (n_seen st)) (n_m1 st) (padd s (n_m2 st)) (n_clock st), Some (negb (pmem s (n_m2 st))))
    else (st, None).
  Definition tick (st : nst) : nst := mkNst (n_seen st) (n_m1 st) (n_m2 st) (S (n_clock st)).

  Definition entry := (pstate * sinfo)%type.

  (** ndfs, NestedDepthFirstSearch.cpp:139-179: the inner search from [seed].  The answer tells
      whether a violation was found, with the stack at that moment. *)
  Fixpoint inner (fuel : nat) (seed : pstate) (st : nst) (w : pstate) (todo : list entry) : res (nst * option (list entry)) :=
    match fuel with
    | O => NoFuel
    | S f =>
      match todo with
      | [] => Ok (st, None)
      | (s, si) :: rest =>
        x <- prod_next (n_clock st) s w si ;;
        let '(more, w', si') := x in
        let st := tick st in
        if negb more then inner f seed st w' rest
        else if peqb w' seed then Ok (st, Some ((s, si') :: rest))
        else
          match mark2 st w' with
          | (_, None) => inner f seed st w' ((s, si') :: rest)
          | (st', Some is_new) =>
            let rest' := (s, set_last si' w') :: rest in
            if is_new then inner f seed st' w' ((w', si_init) :: rest') else inner f seed st' w' rest'
          end
      end
    end.

  (** dfs, NestedDepthFirstSearch.cpp:95-137: the outer search.  [weak] is _shortcircuitweak.
      The answer is the violation with both stacks, if any. *)
  Fixpoint outer (fuel : nat) (weak : bool) (st : nst) (w : pstate) (todo : list entry)
    : res (nst * option (list entry * list entry)) :=
    match fuel with
    | O => NoFuel
    | S f =>
      match todo with
      | [] => Ok (st, None)
      | (s, si) :: rest =>
        x <- prod_next (n_clock st) s w si ;;
        let '(more, w', si') := x in
        let st := tick st in
        if negb more then
          if accepting s then
            if self_loop s then Ok (st, Some ((s, si') :: rest, []))
            else
              i <- inner f s (mkNst (padd s (n_seen st)) (n_m1 st) (n_m2 st) (n_clock st)) s [(s, si_init)] ;;
              match snd i with
              | Some nested => Ok (fst i, Some ((s, si') :: rest, nested))
              | None => outer f weak (fst i) w' rest
              end
          else outer f weak st w' rest
        else
          match mark1 st w' with
          | (_, None) => outer f weak st w' ((s, si') :: rest)
          | (st', Some is_new) =>
            let rest' := (s, set_last si' w') :: rest in
            if is_new then
              if weak && accepting s && self_loop s then Ok (st', Some (rest', []))
              else outer f weak st' w' ((w', si_init) :: rest')
            else outer f weak st' w' rest'
          end
      end
    end.

  (** dfs over the initial states, NestedDepthFirstSearch.cpp:81-93. *)
  Fixpoint ndfs_inits (fuel : nat) (weak : bool) (inits : list pstate) (st : nst)
    : res (nst * option (list entry * list entry)) :=
    match inits with
    | [] => Ok (st, None)
    | s :: r =>
      if inb (fst s) && negb (pmem s (n_seen st)) then
        x <- outer fuel weak (mkNst (s :: n_seen st) (n_m1 st) (n_m2 st) (n_clock st)) s [(s, si_init)] ;;
        match snd x with
        | Some v => Ok (fst x, Some v)
        | None => ndfs_inits fuel weak r (fst x)
        end
      else ndfs_inits fuel weak r st
    end.

  (** NestedDepthFirstSearch::check, NestedDepthFirstSearch.cpp:25-70: true when there is no
      violation. *)
  Definition ndfs_check (fuel : nat) (weak : bool) (m0 : marking) : res bool :=
    x <- ndfs_inits fuel weak (initial_states m0) (mkNst [] [] [] 0) ;;
    Ok (match snd x with Some _ => false | None => true end).

  (** ** Tarjan's algorithm, TarjanModelChecker.cpp *)
  (** plain_centry_t, TarjanModelChecker.h:97-105. *)
  Record centry := mkCE { ce_low : nat; ce_id : pstate; ce_next : option nat; ce_dstack : bool }.
  (** The hash function of TarjanModelChecker.h:92-95, on any pair; nothing depends on it. *)
  Variable hash : pstate -> nat.
  (** [t_data] is the memory of cstack and [t_size] its size: pop_back leaves the entry in
      memory (light_deque.h), where [update] still reads it.  [t_d], [t_a]: dstack and _astack, top
      first; [t_chash]: _chash; [t_seen]: the state set; [t_store]: _store. *)
  Record tst := mkT {
    t_seen : list pstate;
    t_data : list centry;
    t_size : nat;
    t_d : list (nat * sinfo);
    t_a : list nat;
    t_chash : nat -> option nat;
    t_store : list pstate;
    t_viol : bool;
    t_clock : nat
  }.
  Definition chash_set (c : nat -> option nat) (h : nat) (x : option nat) : nat -> option nat :=
    fun i => if Nat.eqb i h then x else c i.
  (** light_deque::push_back over memory kept from earlier pops. *)
  Definition cpush (data : list centry) (size : nat) (x : centry) : list centry :=
    if size <? length data then upd data size x else data ++ [x].

  (** push, TarjanModelChecker.cpp:172-191. *)
  Definition tpush (st : tst) (s : pstate) : tst :=
    let h := hash s in
    let p := t_size st in
    let acc := accepting s in
    mkT (t_seen st)
        (cpush (t_data st) p (mkCE p s (t_chash st h) true))
        (S p)
        ((p, si_init) :: t_d st)
        (if acc then p :: t_a st else t_a st)
        (chash_set (t_chash st) h (Some p))
        (t_store st)
        (if acc && self_loop s then true else t_viol st)
        (t_clock st).

  (** update, TarjanModelChecker.cpp:227-245 (without the trace). *)
  Definition tupdate (st : tst) (to : nat) : res tst :=
    match t_d st with
    | [] => UB
    | (from, _) :: _ =>
      ct <- rd (t_data st) to ;;
      cf <- rd (t_data st) from ;;
      if ce_low ct <=? ce_low cf then
        Ok (mkT (t_seen st)
                (upd (t_data st) from (mkCE (ce_low ct) (ce_id cf) (ce_next cf) (ce_dstack cf)))
                (t_size st) (t_d st) (t_a st) (t_chash st) (t_store st)
                (match t_a st with [] => false | a :: _ => to <=? a end)
                (t_clock st))
      else Ok st
    end.

  (** popCStack, TarjanModelChecker.cpp:216-223. *)
  Definition tpopc (st : tst) : res tst :=
    match t_size st with
    | O => UB
    | S n =>
      c <- rd (t_data st) n ;;
      Ok (mkT (t_seen st) (t_data st) n (t_d st) (t_a st)
              (chash_set (t_chash st) (hash (ce_id c)) (ce_next c))
              (padd (ce_id c) (t_store st)) (t_viol st) (t_clock st))
    end.
  (** The loop of pop, TarjanModelChecker.cpp:199-202; [k] is at least the number of rounds. *)
  Fixpoint tpop_scc (k : nat) (p : nat) (st : tst) : res tst :=
    if p <? t_size st then
      match k with
      | O => NoFuel
      | S k' => st' <- tpopc st ;; tpop_scc k' p st'
      end
    else Ok st.

  (** pop, TarjanModelChecker.cpp:193-214. *)
  Definition tpop (st : tst) : res tst :=
    match t_d st with
    | [] => UB
    | (p, _) :: d =>
      c <- rd (t_data st) p ;;
      let st1 := mkT (t_seen st) (upd (t_data st) p (mkCE (ce_low c) (ce_id c) (ce_next c) false))
                     (t_size st) d (t_a st) (t_chash st) (t_store st) (t_viol st) (t_clock st) in
      st2 <- (if ce_low c =? p then tpop_scc (t_size st1) p st1 else Ok st1) ;;
      let a := match t_a st2 with x :: r => if p =? x then r else t_a st2 | [] => [] end in
      let st3 := mkT (t_seen st2) (t_data st2) (t_size st2) (t_d st2) a (t_chash st2) (t_store st2)
                     (t_viol st2) (t_clock st2) in
      match t_d st3 with
      | [] => Ok st3
      | _ => tupdate st3 p
      end
    end.

  (** The search of the hash chain, TarjanModelChecker.cpp:136-145 (the call of generate_all is
      discarded at compile time: the generator is never a SpoolingSuccessorGenerator itself). *)
  Fixpoint lookup (k : nat) (data : list centry) (s : pstate) (pos : option nat) : res (option nat) :=
    match pos with
    | None => Ok None
    | Some i =>
      match k with
      | O => NoFuel
      | S k' =>
        c <- rd data i ;;
        if peqb (ce_id c) s then Ok (Some i) else lookup k' data s (ce_next c)
      end
    end.

  (** The search loop, TarjanModelChecker.cpp:112-158. *)
  Fixpoint tloop (fuel : nat) (st : tst) (w : pstate) : res (tst * pstate) :=
    match fuel with
    | O => NoFuel
    | S f =>
      match t_d st with
      | [] => Ok (st, w)
      | (p, si) :: d =>
        if t_viol st then Ok (st, w)
        else
          c <- rd (t_data st) p ;;
          x <- prod_next (t_clock st) (ce_id c) w si ;;
          let '(more, w', si') := x in
          let st1 := mkT (t_seen st) (t_data st) (t_size st) ((p, si') :: d) (t_a st) (t_chash st)
                         (t_store st) (t_viol st) (S (t_clock st)) in
          if negb more then st2 <- tpop st1 ;; tloop f st2 w'
          else if negb (inb (fst w')) then tloop f st1 w'
          else
            let st2 := mkT (padd w' (t_seen st1)) (t_data st1) (t_size st1) ((p, set_last si' w') :: d)
                           (t_a st1) (t_chash st1) (t_store st1) (t_viol st1) (t_clock st1) in
            pos <- lookup (S (t_size st2)) (t_data st2) w' (t_chash st2 (hash w')) ;;
            match pos with
            | Some i => st3 <- tupdate st2 i ;; tloop f st3 w'
            | None => tloop f (if pmem w' (t_store st2) then st2 else tpush st2 w') w'
            end
      end
    end.

  (** compute, TarjanModelChecker.cpp:87-170: the loop over the initial states. *)
  Fixpoint tarjan_inits (fuel : nat) (inits : list pstate) (st : tst) (w : pstate) : res tst :=
    match inits with
    | [] => Ok st
    | s :: r =>
      if t_viol st then Ok st
      else
        let st1 :=
          if inb (fst s) && negb (pmem s (t_seen st)) then
            tpush (mkT (s :: t_seen st) (t_data st) (t_size st) (t_d st) (t_a st) (t_chash st)
                       (t_store st) (t_viol st) (t_clock st)) s
          else st in
        x <- tloop fuel st1 w ;;
        tarjan_inits fuel r (fst x) (snd x)
    end.

  (** TarjanModelChecker::check without partial order reduction: true when there is no
      violation. *)
  Definition tarjan_check (fuel : nat) (m0 : marking) : res bool :=
    st <- tarjan_inits fuel (initial_states m0)
            (mkT [] [] 0 [] [] (fun _ => None) [] false 0) (m0, 0) ;;
    Ok (negb (t_viol st)).
End Ltl.
