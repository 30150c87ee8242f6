(** Model of the removal of dead transitions from coloured nets
    (src/PetriEngine/Colored/Reduction/RedRuleDeadTransitions.cpp, ColoredReducer.cpp).
    Expressions, multisets and bindings are those of ColModel. *)
From Verif Require Import Base ColSyntax ColModel.
Set Implicit Arguments.

(** The net with the places and transitions that have been removed
    (ColoredNetStructures.h: skipped). *)
Record rnet := mkR { r_net : cpn; r_trs : list nat; r_pls : list nat }.

(** Expressions.h:334-336, 382-388, 426-428, 457-459 weight(), in 32 bits. *)
Fixpoint weight (a : aexp) : N :=
  match a with
  | ANum es n => cw32 (n * N.of_nat (length es))
  | AAdd es => fold_left (fun x e => cw32 (x + e)) (map weight es) 0%N
  | ASub l r => cw32 (weight l + 4294967296 - weight r)
  | AScal e k => cw32 (k * weight e)
  end.

(** ColoredReducer.cpp:80-104 getInArc, getOutArc.  The arcs are sorted by place with at most
    one arc for every place (ColoredPetriNetBuilder.cpp:134-160, 200-210): the first with the
    place is the one found. *)
Definition find_arc (p : nat) (l : list (nat * aexp)) : option aexp :=
  match find (fun x => Nat.eqb (fst x) p) l with Some x => Some (snd x) | None => None end.

Section Rule.
(** [used_t], [used_p]: ColoredUseVisitor; [same]: equality of the printed expressions;
    [subset]: both expressions have a multiset of variables and the first is a proper
    subset (extractVarMultiset, isSubsetOf); [vs]: the variables of a transition in the order
    of the generator's map; [timeout]: hasTimedOut when the place is looked at. *)
Variable used_t used_p : nat -> bool.
Variable same subset : aexp -> aexp -> bool.
Variable vs : nat -> list nat.
Variable timeout : nat -> bool.

Definition tr_of (n : cpn) (t : nat) : ctrans := nth t (cn_trs n) (mkCT None [] [] 0).
(** Place::_pre and _post: the producers and the consumers, sorted. *)
Definition producers (n : cpn) (p : nat) : list nat :=
  filter (fun t => match find_arc p (ct_out (tr_of n t)) with Some _ => true | None => false end) (seq 0 (length (cn_trs n))).
Definition consumers (n : cpn) (p : nat) : list nat :=
  filter (fun t => match find_arc p (ct_in (tr_of n t)) with Some _ => true | None => false end) (seq 0 (length (cn_trs n))).

(** Multiset.cpp:133-145 isSubsetOrEqTo, empty. *)
Definition sub_or_eq (n : cpn) (a b : mset) : res bool :=
  d <- msub (cn_types n) a b ;; Ok (forallb (fun x => N.eqb (snd x) 0) (snd d)).

(** RedRuleDeadTransitions.cpp:110-123 markingEnablesInArc *)
Fixpoint enables_loop (n : cpn) (a : aexp) (mk : mset) (bs : list bmap) : res bool :=
  match bs with
  | [] => Ok false
  | b :: bs' =>
    m <- evaluate (cn_types n) (cn_map n) (cn_vars n) b a ;;
    e <- sub_or_eq n m mk ;;
    if e then Ok true else enables_loop n a mk bs'
  end.
Definition enables (n : cpn) (a : aexp) (mk : mset) (t : nat) : res bool :=
  bs <- naive_bindings (cn_types n) (cn_map n) (cn_vars n) (ct_guard (tr_of n t)) (vs t) ;; enables_loop n a mk bs.

(** ColoredReducer.cpp:344-366 getBindingCount *)
Definition binding_count (n : cpn) (t : nat) : N :=
  fold_left (fun x v => cw32 (x * N.of_nat (csize (cn_types n) (nth v (cn_vars n) 0)))) (vs t) 1%N.

(** RedRuleDeadTransitions.cpp:44-86: the consumers; whether the rule can be used and the
    consumers that are not enabled. *)
Fixpoint tally (n : cpn) (p : nat) (mk : mset) (cs : list nat) (ok : bool) (ne : list nat) : res (bool * list nat) :=
  match cs with
  | [] => Ok (ok, ne)
  | t :: cs' =>
    match find_arc p (ct_in (tr_of n t)) with
    | None => UB
    | Some i =>
      let o := find_arc p (ct_out (tr_of n t)) in
      if (weight i <=? msize mk)%N && match o with Some o => (weight i <? weight o)%N | None => false end then Ok (false, ne)
      else if (10000 <? binding_count n t)%N then tally n p mk cs' false ne
      else
        e <- enables n i mk t ;;
        if e then
          match o with
          | None => tally n p mk cs' ok ne
          | Some o => if subset i o || negb (same o i) then Ok (false, ne) else tally n p mk cs' ok ne
          end
        else tally n p mk cs' ok (ne ++ [t])
    end
  end.

(** ColoredReducer.cpp:138-172 skipTransition *)
Definition clear_tr (tr : ctrans) : ctrans := mkCT (ct_guard tr) [] [] (ct_player tr).
Definition skip_transition (r : rnet) (t : nat) : rnet :=
  let n := r_net r in
  mkR (mkCpn (cn_types n) (cn_map n) (cn_vars n) (cn_pls n) (upd (cn_trs n) t (clear_tr (tr_of n t)))
             (filter (fun x => negb (Nat.eqb (snd (fst x)) t)) (cn_inh n)))
      (t :: r_trs r) (r_pls r).
(** 106-136 skipPlace *)
Definition drop_arcs (p : nat) (l : list (nat * aexp)) : list (nat * aexp) := filter (fun x => negb (Nat.eqb (fst x) p)) l.
Definition skip_place (r : rnet) (p : nat) : rnet :=
  let n := r_net r in
  mkR (mkCpn (cn_types n) (cn_map n) (cn_vars n) (cn_pls n)
             (map (fun tr => mkCT (ct_guard tr) (drop_arcs p (ct_in tr)) (drop_arcs p (ct_out tr)) (ct_player tr)) (cn_trs n))
             (filter (fun x => negb (Nat.eqb (fst (fst x)) p)) (cn_inh n)))
      (r_trs r) (p :: r_pls r).

(** 90-104: the transitions are removed, and the place *)
Fixpoint skip_all (r : rnet) (ne : list nat) (skipplace : bool) : rnet * bool :=
  match ne with
  | [] => (r, skipplace)
  | t :: ne' => if used_t t then skip_all r ne' false else skip_all (skip_transition r t) ne' skipplace
  end.
(** 23-105: one place *)
Definition dead_place (r : rnet) (p : nat) : res rnet :=
  let n := r_net r in
  if existsb (Nat.eqb p) (r_pls r) then Ok r
  else if inhibiting n p then Ok r
  else if length (consumers n p) <? length (producers n p) then Ok r
  else if negb (forallb (fun t => match find_arc p (ct_in (tr_of n t)) with Some _ => true | None => false end) (producers n p)) then Ok r
  else
    mk <- match nth_error (cn_pls n) p with Some pl => marking n pl | None => UB end ;;
    x <- tally n p mk (consumers n p) true [] ;;
    let '(ok, ne) := x in
    if negb ok || match ne with [] => true | _ => false end then Ok r
    else
      let '(r', sp) := skip_all r ne (Nat.eqb (length ne) (length (producers n p)) && negb (used_p p)) in
      Ok (if sp then skip_place r' p else r').
(** 15-108 apply *)
Fixpoint dead_places (r : rnet) (ps : list nat) : res rnet :=
  match ps with
  | [] => Ok r
  | p :: ps' => if timeout p then Ok r else r' <- dead_place r p ;; dead_places r' ps'
  end.
Definition dead_transitions (r : rnet) : res rnet := dead_places r (seq 0 (length (cn_pls (r_net r)))).
End Rule.
