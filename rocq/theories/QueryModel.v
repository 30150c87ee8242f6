(** Model of the compilation of fireability and global properties (AnalyzeVisitor), of the
    classification of queries (PredicateCheckers) and of prepareForReachability. *)
From Verif Require Import Base NetSpec NetModel PqlSyntax PqlModel.
Set Implicit Arguments.

(** * Compilation *)

(** src/PetriEngine/PQL/Analyze.cpp:172-186: one constraint; the fields of a new cons_t are
    0 and the largest 32-bit number. *)
Definition fire_cons (iv : invariant) : cons :=
  if negb (iv_inhib iv) then mkCons (iv_place iv) (iv_tokens iv) u32max
  else if (0 <? iv_tokens iv)%N then mkCons (iv_place iv) 0 (iv_tokens iv - 1)
  else mkCons (iv_place iv) 0 u32max.
(** include/PetriEngine/PetriNet.h, PetriNet::preset(t). *)
Definition preset (net : cnet) (t : nat) : res (list invariant) :=
  a <- rd (cn_transitions net) t ;;
  Ok (slice (cn_invs net) (fst a) (snd a)).
(** Analyze.cpp:153-192, UnfoldedFireableCondition (the name already resolved to [t]). *)
Definition fireable (net : cnet) (t : nat) : res cond :=
  pre <- preset net t ;;
  match pre with
  | [] => Ok (CBool true)
  | _ => Ok (CConj false (map fire_cons pre))
  end.
Fixpoint map_res (A B : Type) (f : A -> res B) (l : list A) : res (list B) :=
  match l with
  | [] => Ok []
  | x :: l' => y <- f x ;; r <- map_res f l' ;; Ok (y :: r)
  end.
(** Analyze.cpp:194-233, FireableCondition; [ts] are the transitions the (coloured) name
    stands for, one transition for a net that is not coloured. *)
Definition fireable_any (net : cnet) (ts : list nat) : res cond :=
  match ts with
  | [] => Ok (CBool false)
  | [t] => fireable net t
  | _ => l <- map_res (fireable net) ts ;; Ok (COr l)
  end.
(** Analyze.cpp:274-295, KSafeCondition, net without colours; the compared expression is a
    place, the bound an expression. *)
Definition k_safe (net : cnet) (bound : expr) : cond :=
  CAG (CAnd (map (fun p => CCmp OpLe (Pl p) bound) (seq 0 (cn_places net)))).
(** Analyze.cpp:312-340, QuasiLivenessCondition; the order of the names is not modelled. *)
Definition quasi_live (net : cnet) : res cond :=
  l <- map_res (fun t => f <- fireable net t ;; Ok (CEF f)) (seq 0 (cn_ntrans net)) ;; Ok (CAnd l).
(** Analyze.cpp:342-371, LivenessCondition. *)
Definition live (net : cnet) : res cond :=
  l <- map_res (fun t => f <- fireable net t ;; Ok (CAG (CEF f))) (seq 0 (cn_ntrans net)) ;; Ok (CAnd l).
(** Analyze.cpp:373-411, StableMarkingCondition. *)
Definition stable (net : cnet) : cond :=
  COr (map (fun p => CAG (CCmp OpEq (Pl p) (Lit (Z.of_N (nth p (cn_init net) 0%N))))) (seq 0 (cn_places net))).
(** the same for a coloured net: [groups] lists the places of each coloured place; the
    initial marking is summed in 32 bits (MarkVal). *)
Definition stable_col (net : cnet) (groups : list (list nat)) : cond :=
  COr (map (fun ps => CAG (CCmp OpEq (mk_plus (map Pl ps))
     (Lit (Z.of_N (fold_left (fun s p => (s + nth p (cn_init net) 0) mod 2 ^ 32)%N ps 0%N))))) groups).

(** * Classification, src/PetriEngine/PQL/PredicateCheckers.cpp *)

(** Lines 26-46, NestedDeadlockVisitor: the result and the flag
    _nested_in_logical_condition afterwards. *)
Fixpoint nested_dead (c : cond) (flag : bool) : bool * bool :=
  match c with
  | CBool _ | CCmp _ _ _ | CConj _ _ => (false, flag)
  | CDead => (flag, flag)
  | CAnd l | COr l =>
    ((fix go (l : list cond) (fl : bool) : bool :=
        match l with
        | [] => false
        | c :: l' => let r := nested_dead c fl in fst r || go l' (snd r)
        end) l true, false)
  | CNot c | CEX c | CAX c | CEF c | CAF c | CEG c | CAG c | CE c | CA c | CF c | CG c | CX c => nested_dead c flag
  | CEU a b | CAU a b | CU a b =>
    let r := nested_dead a flag in
    let s := nested_dead b (snd r) in (fst r || fst s, snd s)
  end.
Definition has_nested_deadlock (c : cond) : bool := fst (nested_dead c false).

(** Lines 74-217, IsNotReachabilityVisitor; [nested] is _is_nested. *)
Fixpoint not_reach (nested : bool) (c : cond) : bool :=
  match c with
  | CBool _ | CDead | CCmp _ _ _ | CConj _ _ => negb nested
  | CNot c => not_reach nested c
  | CAnd l | COr l => if nested then existsb (not_reach true) l else true
  | CEF c | CAG c => if nested then true else not_reach true c
  | CE (CF c) | CA (CG c) => if nested then true else not_reach true c
  | _ => true
  end.
Definition is_reachability (c : cond) : bool := negb (not_reach false c).

(** Lines 220-314, IsLoopSensitiveVisitor: the result and _negated afterwards.  (Once the
    result is true the flag no longer matters.) *)
Fixpoint loop_sens (c : cond) (neg : bool) : bool * bool :=
  match c with
  | CBool _ | CCmp _ _ _ | CConj _ _ => (false, neg)
  | CDead => (true, neg)
  | CNot c | CA c => loop_sens c (negb neg)
  | CAnd l | COr l =>
    (fix go (l : list cond) (n : bool) : bool * bool :=
       match l with
       | [] => (false, n)
       | c :: l' => let r := loop_sens c n in let s := go l' (snd r) in (fst r || fst s, snd s)
       end) l neg
  | CEF c | CAG c => loop_sens c neg
  | CEU a b | CU a b =>
    if neg then (true, neg)
    else let r := loop_sens a neg in let s := loop_sens b (snd r) in (fst r || fst s, snd s)
  | _ => (true, neg)
  end.
Definition is_loop_sensitive (c : cond) : bool := fst (loop_sens c false).

(** Lines 317-341, ContainsNextVisitor. *)
Fixpoint contains_next (c : cond) : bool :=
  match c with
  | CBool _ | CDead | CCmp _ _ _ | CConj _ _ => false
  | CEX _ | CAX _ | CX _ => true
  | CNot c | CEF c | CAF c | CEG c | CAG c | CE c | CA c | CF c | CG c => contains_next c
  | CAnd l | COr l => existsb contains_next l
  | CEU a b | CAU a b | CU a b => contains_next a || contains_next b
  end.
(** include/PetriEngine/PQL/PredicateCheckers.h, ContainsDeadlockVisitor. *)
Fixpoint contains_deadlock (c : cond) : bool :=
  match c with
  | CBool _ | CCmp _ _ _ | CConj _ _ => false
  | CDead => true
  | CNot c | CEX c | CAX c | CEF c | CAF c | CEG c | CAG c | CE c | CA c | CF c | CG c | CX c => contains_deadlock c
  | CAnd l | COr l => existsb contains_deadlock l
  | CEU a b | CAU a b | CU a b => contains_deadlock a || contains_deadlock b
  end.

(** * src/PetriEngine/PQL/PrepareForReachability.cpp:26-147; [None] is the null pointer.
    The result carries the flag set by setInvariant.  For A and E with another operand than
    G, F a null pointer is dereferenced before it is tested. *)
Fixpoint prepare (negated : bool) (c : cond) : res (option (cond * bool)) :=
  match c with
  | CEF c => Ok (Some (c, negated))
  | CAG c => Ok (Some (CNot c, negb negated))
  | CA (CG c) => Ok (Some (CNot c, negb negated))
  | CE (CF c) => Ok (Some (c, negated))
  | CA _ | CE _ => UB
  | CNot c => prepare (negb negated) c
  | CG _ | CF _ | CX _ => Throw
  | _ => Ok None
  end.
Definition prepare_for_reachability (c : cond) : res (option (cond * bool)) := prepare false c.

(** * What the search is given, src/PetriEngine/Reachability/ReachabilitySearch.cpp:35-75 (checkQueries,
    doCallback): the query prepared as above, its invariant flag, and its value in a marking. *)
Definition goal_of (c : cond) : cond := match prepare_for_reachability c with Ok (Some (g, _)) => g | _ => CBool false end.
Definition invariant_of (c : cond) : bool := match prepare_for_reachability c with Ok (Some (_, i)) => i | _ => false end.
Definition is_rtrue (v : tv) : bool := match v with RTrue => true | _ => false end.
Definition net_deadb (net : cnet) (m : list N) : bool := match deadlocked net m with Ok b => b | _ => false end.
(** what checkQueries evaluates for query [c] *)
Definition goal_test (net : cnet) (c : cond) : list N -> bool := fun m => is_rtrue (evaluate (net_deadb net) m (goal_of c)).

(** Inhibitor arcs of positive weight that fit 32 bits (the builder makes no others, C03,
    except for arcs added with weight 0). *)
Definition inhib_pos (net : cnet) : Prop :=
  forall iv, In iv (cn_invs net) -> iv_inhib iv = true -> (0 < iv_tokens iv < 2 ^ 32)%N.
