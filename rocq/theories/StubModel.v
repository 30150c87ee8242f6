(** Model of the stubborn set computation for reachability:
    include/PetriEngine/Stubborn/StubbornSet.h, src/PetriEngine/Stubborn/StubbornSet.cpp,
    ReachabilityStubbornSet.cpp, InterestingTransitionVisitor.cpp and
    src/PetriEngine/ReducingSuccessorGenerator.cpp. *)
From Verif Require Import Base NetModel PqlSyntax PqlModel.
Set Implicit Arguments.

Section Net.
  Variable net : cnet.
  (** PetriNet::preset and postset *)
  Definition in_slice (t : nat) : list invariant :=
    let a := nth t (cn_transitions net) (0, 0) in slice (cn_invs net) (fst a) (snd a).
  Definition out_slice (t : nat) : list invariant :=
    let a := nth t (cn_transitions net) (0, 0) in
    let b := nth (S t) (cn_transitions net) (0, 0) in slice (cn_invs net) (snd a) (fst b).
  Definition all_trans : list nat := seq 0 (cn_ntrans net).

  (** StubbornSet.cpp:121-179, constructPrePost: for a place the transitions that add to it
      (tmp_places[p].first), those that consume from it with their directions (second) and
      those that it inhibits (_inhibpost[p]).  The flat array _arcs with its offsets is
      represented by these lists; they are built in the order of the transitions, so sorting
      changes nothing. *)
  Definition pre_of (p : nat) : list nat :=
    flat_map (fun t => map (fun _ => t) (filter (fun iv => Nat.eqb (iv_place iv) p && (0 <? iv_dir iv)%Z) (out_slice t))) all_trans.
  Definition post_of (p : nat) : list (nat * Z) :=
    flat_map (fun t => map (fun iv => (t, iv_dir iv)) (filter (fun iv => Nat.eqb (iv_place iv) p && negb (iv_inhib iv)) (in_slice t))) all_trans.
  Definition inhib_of (p : nat) : list nat :=
    flat_map (fun t => map (fun _ => t) (filter (fun iv => Nat.eqb (iv_place iv) p && iv_inhib iv) (in_slice t))) all_trans.
  (** StubbornSet.cpp:106-119, checkForInhibitor *)
  Definition has_inhib : bool := existsb (fun t => existsb iv_inhib (in_slice t)) all_trans.
  (** StubbornSet.cpp:181-195, constructDependency *)
  Definition dependency_of (t : nat) : nat := fold_left (fun d iv => d + length (post_of (iv_place iv))) (in_slice t) 0.
  (** StubbornSet.h:143-150, dependency *)
  Definition dependency (p : nat) (inhibitor : bool) : nat :=
    if negb inhibitor then length (pre_of p) else length (post_of p).

  (** the members _stubborn, _places_seen (three flags) and _unprocessed *)
  Record stub := mkStub {
    st_stub : list bool;
    st_pre : list bool;
    st_post : list bool;
    st_inhib : list bool;
    st_todo : list nat
  }.
  Definition stub_new : stub :=
    mkStub (repeat false (cn_ntrans net)) (repeat false (cn_places net)) (repeat false (cn_places net)) (repeat false (cn_places net)) [].
  Definition in_stub (s : stub) (t : nat) : bool := nth t (st_stub s) false.
  Definition seen_pre (s : stub) (p : nat) : bool := nth p (st_pre s) false.
  Definition seen_post (s : stub) (p : nat) : bool := nth p (st_post s) false.
  Definition seen_inhib (s : stub) (p : nat) : bool := nth p (st_inhib s) false.
  (** StubbornSet.cpp:198-203, addToStub *)
  Definition add_to_stub (s : stub) (t : nat) : stub :=
    if in_stub s t then s
    else mkStub (upd (st_stub s) t true) (st_pre s) (st_post s) (st_inhib s) (st_todo s ++ [t]).
  (** StubbornSet.cpp:65-91, presetOf, postsetOf and inhibitorPostsetOf, without the closure
      at the end *)
  Definition preset0 (s : stub) (p : nat) : stub :=
    if seen_pre s p then s
    else fold_left add_to_stub (pre_of p) (mkStub (st_stub s) (upd (st_pre s) p true) (st_post s) (st_inhib s) (st_todo s)).
  Definition postset0 (s : stub) (p : nat) : stub :=
    if seen_post s p then s
    else fold_left add_to_stub (map fst (filter (fun a => (snd a <? 0)%Z) (post_of p)))
           (mkStub (st_stub s) (st_pre s) (upd (st_post s) p true) (st_inhib s) (st_todo s)).
  Definition inhib0 (s : stub) (p : nat) : stub :=
    if seen_inhib s p then s
    else fold_left add_to_stub (inhib_of p) (mkStub (st_stub s) (st_pre s) (st_post s) (upd (st_inhib s) p true) (st_todo s)).

  Variable m : list N.
  Variable en : nat -> bool.     (* _enabled *)
  Definition tok (p : nat) : N := nth p m 0%N.

  (** StubbornSet.h:179-216: the search for a place that keeps a disabled transition
      disabled.  [inl]: a place already handled was found; [inr c]: the candidate left, with
      whether it is inhibiting. *)
  Fixpoint scan (s : stub) (l : list invariant) (cand : option (nat * bool)) (deps : option nat) : unit + option (nat * bool) :=
    match l with
    | [] => inr cand
    | iv :: l' =>
      let p := iv_place iv in
      let better (i : bool) := match deps with None => true | Some d => dependency p i <=? d end in
      if (tok p <? iv_tokens iv)%N && negb (iv_inhib iv) then
        if seen_pre s p then inl tt
        else if better false then scan s l' (Some (p, false)) (Some (dependency p false)) else scan s l' cand deps
      else if (iv_tokens iv <=? tok p)%N && iv_inhib iv then
        if seen_post s p then inl tt
        else if better true then scan s l' (Some (p, true)) (Some (dependency p true)) else scan s l' cand deps
      else scan s l' cand deps
    end.
  (** StubbornSet.h:154-227, one turn of the loop of closure, for transition [t].  Without a
      candidate the assertion fails; without assertions nothing happens. *)
  Definition close_one (s : stub) (t : nat) : stub :=
    if en t then
      let s1 := fold_left (fun s iv => if (iv_dir iv <? 0)%Z then fold_left add_to_stub (map fst (post_of (iv_place iv))) s else s) (in_slice t) s in
      if has_inhib then fold_left (fun s iv => if (0 <? iv_dir iv)%Z then inhib0 s (iv_place iv) else s) (out_slice t) s1 else s1
    else
      match scan s (in_slice t) None None with
      | inl _ => s
      | inr (Some (p, false)) => preset0 s p
      | inr (Some (p, true)) => postset0 s p
      | inr None => s
      end.
  Fixpoint close_loop (fuel : nat) (s : stub) : res stub :=
    match st_todo s with
    | [] => Ok s
    | t :: todo =>
      match fuel with
      | O => NoFuel
      | S f => close_loop f (close_one (mkStub (st_stub s) (st_pre s) (st_post s) (st_inhib s) todo) t)
      end
    end.
  (** a turn removes one of the transitions waiting, and each transition is added once *)
  Definition close_fuel (s : stub) : nat := length (st_todo s) + length (filter negb (st_stub s)).
  Definition closure (s : stub) : res stub := close_loop (close_fuel s) s.
  (** the calls of the visitor: presetOf and postsetOf with make_closure = [mk] *)
  Variable mk : bool.
  Definition preset_of (s : stub) (p : nat) : res stub :=
    if seen_pre s p then Ok s else if mk then closure (preset0 s p) else Ok (preset0 s p).
  Definition postset_of (s : stub) (p : nat) : res stub :=
    if seen_post s p then Ok s else if mk then closure (postset0 s p) else Ok (postset0 s p).
  (** StubbornSet.cpp:93-104, postPresetOf *)
  Definition post_preset_of (s : stub) (t : nat) : res stub :=
    foldM (fun s iv => if iv_inhib iv then preset_of s (iv_place iv) else postset_of s (iv_place iv)) (in_slice t) s.
  (** StubbornSet.cpp:205-221, leastDependentEnabled *)
  Definition least_dependent : option nat :=
    fold_left (fun b t => if en t then match b with
                                      | None => Some t
                                      | Some u => if dependency_of t <? dependency_of u then Some t else Some u
                                      end
                          else b) all_trans None.

  (** InterestingTransitionVisitor.cpp:274-383, IncrVisitor ([up]) and DecrVisitor *)
  Definition move (up : bool) (s : stub) (p : nat) : res stub := if up then preset_of s p else postset_of s p.
  Fixpoint visit_expr (up : bool) (e : expr) (s : stub) : res stub :=
    match e with
    | Lit _ => Ok s
    | Pl p => move up s p
    | Ident e => visit_expr up e s
    | Minus _ => Ok s
    | Sub e es => s <- visit_expr up e s ;; foldM (fun s e => visit_expr (negb up) e s) es s
    | Plus _ ids es => s <- foldM (move up) ids s ;; foldM (fun s e => visit_expr up e s) es s
    | Mul _ ids es =>
      if Nat.eqb (length ids + length es) 1 then
        s <- foldM (move up) ids s ;; foldM (fun s e => visit_expr up e s) es s
      else
        s <- foldM (fun s p => s <- preset_of s p ;; postset_of s p) ids s ;;
        foldM (fun s e => s <- visit_expr true e s ;; visit_expr false e s) es s
    end.

  (** PQL.h:75-90, setEval and getEval: the value is kept in an int *)
  Definition wrap32 (z : Z) : Z := ((z + 2 ^ 31) mod 2 ^ 32 - 2 ^ 31)%Z.
  Definition get_eval (e : expr) : Z := wrap32 (eval m e).
  (** InterestingTransitionVisitor.cpp:61-118, CompareConjunction: the loop, with the
      candidate so far and whether its preset is meant *)
  Fixpoint visit_conj (neg : bool) (cs : list cons) (cand : option (nat * bool)) (s : stub) : res stub :=
    match cs with
    | [] => match cand with
            | None => Ok s
            | Some (p, true) => preset_of s p
            | Some (p, false) => postset_of s p
            end
    | c :: cs' =>
      let p := c_place c in
      let v := tok p in
      let next (cand : option (nat * bool)) (s : stub) :=
        match cand with
        | Some (q, pre) => if (if pre then seen_pre s q else seen_post s q) then Ok s else visit_conj neg cs' cand s
        | None => visit_conj neg cs' cand s
        end in
      if (c_lower c =? c_upper c)%N then
        if neg then
          if negb (v =? c_lower c)%N then visit_conj neg cs' cand s
          else s <- postset_of s p ;; s <- preset_of s p ;; next cand s
        else if (v =? c_lower c)%N then visit_conj neg cs' cand s
        else if (c_lower c <? v)%N then next (Some (p, false)) s
        else next (Some (p, true)) s
      else if negb neg then
        let cand := if (v <? c_lower c)%N && negb (c_lower c =? 0)%N then Some (p, true) else cand in
        let cand := if (c_upper c <? v)%N && negb (c_upper c =? u32max)%N then Some (p, false) else cand in
        next cand s
      else
        s <- (if (c_lower c <=? v)%N && negb (c_lower c =? 0)%N then postset_of s p else Ok s) ;;
        s <- (if (v <=? c_upper c)%N && negb (c_upper c =? u32max)%N then preset_of s p else Ok s) ;;
        next cand s
    end.
  (** InterestingTransitionVisitor.cpp:120-182, the comparisons *)
  Definition closer (x y : expr) (s : stub) : res stub := s <- visit_expr false x s ;; visit_expr true y s.
  Definition apart (x y : expr) (s : stub) : res stub :=
    s <- visit_expr true x s ;; s <- visit_expr false x s ;; s <- visit_expr true y s ;; visit_expr false y s.
  Definition want_equal (x y : expr) (s : stub) : res stub :=
    if (get_eval x =? get_eval y)%Z then Ok s
    else if (get_eval y <? get_eval x)%Z then closer x y s
    else s <- visit_expr true x s ;; visit_expr false y s.
  Definition want_differ (x y : expr) (s : stub) : res stub :=
    if negb (get_eval x =? get_eval y)%Z then Ok s else apart x y s.
  Definition visit_cmp (neg : bool) (o : cmp) (x y : expr) (s : stub) : res stub :=
    match o with
    | OpEq => if neg then want_differ x y s else want_equal x y s
    | OpNe => if neg then want_equal x y s else want_differ x y s
    | OpLt => if neg then if (get_eval y <=? get_eval x)%Z then Ok s else (s <- visit_expr true x s ;; visit_expr false y s)
              else if (get_eval x <? get_eval y)%Z then Ok s else closer x y s
    | OpLe => if neg then if (get_eval y <? get_eval x)%Z then Ok s else (s <- visit_expr true x s ;; visit_expr false y s)
              else if (get_eval x <=? get_eval y)%Z then Ok s else closer x y s
    end.
  (** InterestingTransitionVisitor.cpp:22-59 and 184-272.  isSatisfied() of an operand is what
      evaluateAndSet stored; it is modelled by the value in the marking.  (Evaluation stops at
      an operand that decides the result, so the values of later operands may be old; they
      are looked at only if the result asked for holds already.)  Upper-bound queries are not
      part of the type of formulas. *)
  Variable dead : list N -> bool.
  Definition satisfied (c : cond) : bool := match evaluate dead m c with RTrue => true | _ => false end.
  Fixpoint visit_cond (neg : bool) (c : cond) (s : stub) : res stub :=
    match c with
    | CBool _ => Ok s
    | CDead => if satisfied CDead then Ok s
               else match least_dependent with Some t => post_preset_of s t | None => UB end
    | CNot c => visit_cond (negb neg) c s
    | CAnd l =>
      if neg then foldM (fun s c => visit_cond neg c s) l s
      else (fix first (l : list cond) : res stub :=
              match l with
              | [] => Ok s
              | c :: l' => if satisfied c then first l' else visit_cond neg c s
              end) l
    | COr l =>
      if neg then (fix first (l : list cond) : res stub :=
              match l with
              | [] => Ok s
              | c :: l' => if satisfied c then visit_cond neg c s else first l'
              end) l
      else foldM (fun s c => visit_cond neg c s) l s
    | CCmp o x y => visit_cmp neg o x y s
    | CConj n cs => visit_conj (xorb neg n) cs None s
    | CEX c | CAX c | CEF c | CAF c | CEG c | CAG c | CE c | CA c | CX c | CF c => visit_cond neg c s
    | CG c => visit_cond (negb neg) c s
    | CEU a b | CAU a b | CU a b =>
      s <- visit_cond neg a s ;; s <- visit_cond (negb neg) a s ;; visit_cond neg b s
    end.
End Net.

(** StubbornSet.h:241-265, constructEnabled: the transitions in _ordering *)
Fixpoint enabled_trans (net : cnet) (m : list N) (t k : nat) : res (list nat) :=
  match k with
  | O => Ok []
  | S k' =>
    b <- check_preset net m t ;;
    l <- enabled_trans net m (S t) k' ;;
    Ok (if b then t :: l else l)
  end.
Fixpoint enabled_places (net : cnet) (m : list N) (p k : nat) : res (list nat) :=
  match k with
  | O => Ok []
  | S k' =>
    go <- (if Nat.eqb p 0 then Ok true else v <- rd m p ;; Ok (0 <? v)%N) ;;
    l <- (if go then
            first <- rd (cn_ptrs net) p ;;
            last <- rd (cn_ptrs net) (S p) ;;
            if last <? first then UB else enabled_trans net m first (last - first)
          else Ok []) ;;
    l' <- enabled_places net m (S p) k' ;;
    Ok (l ++ l')
  end.
Definition mem (l : list nat) (t : nat) : bool := existsb (Nat.eqb t) l.
(** ReachabilityStubbornSet.cpp:24-44, prepare, and StubbornSet.cpp:26-35, next: the
    transitions that will be delivered; [mk] is the member _closure *)
Definition stubborn (net : cnet) (mk : bool) (qs : list cond) (m : list N) : res (list nat) :=
  ord <- enabled_places net m 0 (cn_places net) ;;
  match ord with
  | [] => Ok []
  | [t] => Ok [t]
  | _ =>
    d <- deadlocked net m ;;
    s <- foldM (fun s q => visit_cond net m (mem ord) mk (fun _ => d) false q s) qs (stub_new net) ;;
    s <- closure net m (mem ord) s ;;
    Ok (filter (in_stub s) ord)
  end.
(** ReducingSuccessorGenerator.cpp:30-46: the items delivered and how it ends; after an
    exception nothing more is delivered *)
Fixpoint fire_each (net : cnet) (m : list N) (l : list nat) : list (nat * list N) * res unit :=
  match l with
  | [] => ([], Ok tt)
  | t :: l' =>
    match fire net m t with
    | Ok m' => let r := fire_each net m l' in ((t, m') :: fst r, snd r)
    | Throw => ([], Throw) | UB => ([], UB) | NoFuel => ([], NoFuel)
    end
  end.
Definition stub_stream (net : cnet) (mk : bool) (qs : list cond) (m : list N) : list (nat * list N) * res unit :=
  match stubborn net mk qs m with
  | Ok l => fire_each net m l
  | Throw => ([], Throw) | UB => ([], UB) | NoFuel => ([], NoFuel)
  end.
