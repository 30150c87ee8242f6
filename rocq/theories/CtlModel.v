(** Model of the on-the-fly dependency graph of the CTL engine. *)
From Verif Require Import Base PqlSyntax PqlModel DgSpec.
Set Implicit Arguments.

(** A configuration is a stored marking with a pointer to a node of the query
    (include/CTL/PetriNets/PetriConfig.h; OnTheFlyDG.cpp:577-597, createConfiguration,
    returns the same object for the same pair).  A node is represented by its position: the
    list of operand numbers from the root. *)
Definition ctlconf := (list N * list nat)%type.
Definition ctlconf_eq : forall a b : ctlconf, {a = b} + {a <> b}.
Proof. repeat decide equality. Defined.

(** operator[] and the operands of logical conditions *)
Definition child (c : cond) (i : nat) : option cond :=
  match c with
  | CNot c | CEX c | CAX c | CEF c | CAF c | CEG c | CAG c => match i with 0 => Some c | _ => None end
  | CAnd l | COr l => nth_error l i
  | CEU a b | CAU a b => match i with 0 => Some a | 1 => Some b | _ => None end
  | _ => None
  end.
Fixpoint sub (c : cond) (p : list nat) : option cond :=
  match p with
  | [] => Some c
  | i :: p => match child c i with Some c' => sub c' p | None => None end
  end.

(** include/CTL/DependencyGraph/Edge.h:25-36, an edge under construction: handled flag and
    targets; addTarget drops an edge to its own source. *)
Definition draft := (bool * list ctlconf)%type.
Definition new_draft : draft := (false, []).
Definition add_target (src : ctlconf) (e : draft) (c : ctlconf) : draft :=
  if fst e then e
  else if ctlconf_eq c src then (true, []) else (false, c :: snd e).
(** an edge is handed out, or released if handled *)
Definition commit (e : draft) : list (hedge ctlconf) := if fst e then [] else [mkHedge false (snd e)].
Definition empty_edge : hedge ctlconf := mkHedge false [].

Section Ctl.
  (** the net: the deadlock test, and the markings that the successor generator yields *)
  Variable deadb : list N -> bool.
  Variable succs : list N -> list (list N).
  Variable root : cond.
  Notation ev := (evaluate deadb).

  (** OnTheFlyDG.cpp:79-112, conjunction: the operands to be looked at (with their numbers),
      or none if one is false *)
  Fixpoint and_ops (m : list N) (l : list cond) (i : nat) : option (list nat) :=
    match l with
    | [] => Some []
    | c :: l =>
      match ev m c with
      | RFalse => None
      | r => match and_ops m l (S i) with
             | None => None
             | Some is => Some (match r with RUnknown => i :: is | _ => is end)
             end
      end
    end.
  (** OnTheFlyDG.cpp:97-104: the loop stops at an edge that is handled *)
  Fixpoint add_targets (src : ctlconf) (e : draft) (l : list ctlconf) : draft :=
    match l with
    | [] => e
    | c :: l => let e := add_target src e c in if fst e then e else add_targets src e l
    end.
  (** OnTheFlyDG.cpp:113-132, disjunction: none if an operand is true *)
  Fixpoint or_ops (m : list N) (l : list cond) (i : nat) : option (list nat) :=
    match l with
    | [] => Some []
    | c :: l =>
      match ev m c with
      | RTrue => None
      | r => match or_ops m l (S i) with
             | None => None
             | Some is => Some (match r with RUnknown => i :: is | _ => is end)
             end
      end
    end.
  (** OnTheFlyDG.cpp:183-197, AU, the loop over successors; None: the edge is dropped *)
  Fixpoint au_loop (c : cond) (p : list nat) (src : ctlconf) (l : list (list N)) (e : draft) : option draft :=
    match l with
    | [] => Some e
    | m' :: l =>
      match ev m' c with
      | RTrue => au_loop c p src l e
      | RFalse => None
      | RUnknown => let e := add_target src e (m', p) in if fst e then Some e else au_loop c p src l e
      end
    end.
  (** OnTheFlyDG.cpp:246-265, AF: in the branch for RFALSE the edge loses its targets (the
      evaluation of AF never gives RFALSE); the second component says whether the edge to
      the operand is kept *)
  Fixpoint af_loop (c : cond) (p : list nat) (src : ctlconf) (l : list (list N)) (e : draft) : draft * bool :=
    match l with
    | [] => (e, true)
    | m' :: l =>
      match ev m' c with
      | RTrue => af_loop c p src l e
      | RFalse => ((fst e, []), false)
      | RUnknown => let e := add_target src e (m', p) in if fst e then (e, true) else af_loop c p src l e
      end
    end.
  (** OnTheFlyDG.cpp:290-306, AX: None if the operand is false in a successor; [unk]: allValid
      is RUNKNOWN *)
  Fixpoint ax_loop (c : cond) (p : list nat) (src : ctlconf) (l : list (list N)) (e : draft) (unk : bool) : option (draft * bool) :=
    match l with
    | [] => Some (e, unk)
    | m' :: l =>
      match ev m' c with
      | RFalse => None
      | RUnknown => ax_loop c p src l (add_target src e (m', p)) true
      | RTrue => ax_loop c p src l e unk
      end
    end.
  (** OnTheFlyDG.cpp:351-395, EU; [left] is the configuration of the left operand, if it is
      undecided; the result is the list of edges and whether the edge to the right operand
      is kept *)
  Fixpoint eu_loop (c : cond) (p : list nat) (src : ctlconf) (left : option ctlconf) (valid : bool) (l : list (list N))
    (acc : list (hedge ctlconf)) : list (hedge ctlconf) * bool :=
    match l with
    | [] => (acc, true)
    | m' :: l =>
      if match left with None => negb valid | Some _ => false end then (acc, true)
      else
        match ev m' c with
        | RFalse => eu_loop c p src left valid l acc
        | RTrue =>
          let e := match left with Some x => add_target src new_draft x | None => new_draft end in
          ([mkHedge false (snd e)], negb (match left with None => valid | Some _ => false end))
        | RUnknown =>
          let e := add_target src new_draft (m', p) in
          let e := match left with Some x => add_target src e x | None => e end in
          eu_loop c p src left valid l (acc ++ commit e)
        end
    end.
  (** OnTheFlyDG.cpp:425-457, EF *)
  Fixpoint ef_loop (c : cond) (p : list nat) (src : ctlconf) (l : list (list N)) (acc : list (hedge ctlconf)) : list (hedge ctlconf) * bool :=
    match l with
    | [] => (acc, true)
    | m' :: l =>
      match ev m' c with
      | RFalse => ef_loop c p src l acc
      | RTrue => ([empty_edge], false)
      | RUnknown => ef_loop c p src l (acc ++ commit (add_target src new_draft (m', p)))
      end
    end.
  (** OnTheFlyDG.cpp:463-488, EX *)
  Fixpoint ex_loop (c : cond) (p : list nat) (src : ctlconf) (l : list (list N)) (acc : list (hedge ctlconf)) : list (hedge ctlconf) :=
    match l with
    | [] => acc
    | m' :: l =>
      match ev m' c with
      | RTrue => [empty_edge]
      | RUnknown => ex_loop c p src l (acc ++ [mkHedge false (snd (add_target src new_draft (m', p)))])
      | RFalse => ex_loop c p src l acc
      end
    end.

  (** OnTheFlyDG.cpp:58-507, successors, without partial-order reduction.  nextStates
      (OnTheFlyDG.cpp:522-544) calls [pre] before the first successor and [post] only if there
      was one.  Conditions other than logical and path conditions (EVAL) look at the whole
      query (line 70; with assertions on, the program stops there).  EG and AG fail an
      assertion: no edges. *)
  Definition dg (v : ctlconf) : list (hedge ctlconf) :=
    let (m, p) := v in
    match sub root p with
    | None => []
    | Some c =>
      match c with
      | CNot _ => let e := add_target v new_draft (m, p ++ [0]) in if fst e then [] else [mkHedge true (snd e)]
      | CAnd l =>
        match and_ops m l 0 with
        | None => []
        | Some is => commit (add_targets v new_draft (map (fun i => (m, p ++ [i])) is))
        end
      | COr l =>
        match or_ops m l 0 with
        | None => [empty_edge]
        | Some is => flat_map (fun i => commit (add_target v new_draft (m, p ++ [i]))) is
        end
      | CAU a b =>
        let r1 := ev m b in
        if match r1 with RTrue => true | _ => false end then [empty_edge]
        else
          let right := match r1 with RUnknown => commit (add_target v new_draft (m, p ++ [1])) | _ => [] end in
          let r0 := ev m a in
          let left := match r0 with
                      | RFalse => []
                      | _ =>
                        match succs m with
                        | [] => []
                        | l =>
                          match au_loop c p v l new_draft with
                          | None => []
                          | Some e => commit (match r0 with RUnknown => add_target v e (m, p ++ [0]) | _ => e end)
                          end
                        end
                      end in
          left ++ right
      | CAF a =>
        let r := ev m a in
        if match r with RTrue => true | _ => false end then [empty_edge]
        else
          let subq := match r with RUnknown => [mkHedge false (snd (add_target v new_draft (m, p ++ [0])))] | _ => [] end in
          match succs m with
          | [] => subq
          | l => let q := af_loop c p v l new_draft in commit (fst q) ++ (if snd q then subq else [])
          end
      | CAX a =>
        match ax_loop a (p ++ [0]) v (succs m) new_draft false with
        | None => []
        | Some (e, unk) => [mkHedge false (if unk then snd e else [])]
        end
      | CEU a b =>
        let r1 := ev m b in
        if match r1 with RTrue => true | _ => false end then [empty_edge]
        else
          let right := match r1 with RUnknown => commit (add_target v new_draft (m, p ++ [1])) | _ => [] end in
          let r0 := ev m a in
          let q := eu_loop c p v (match r0 with RUnknown => Some (m, p ++ [0]) | _ => None end)
                     (match r0 with RTrue => true | _ => false end) (succs m) [] in
          fst q ++ (if snd q then right else [])
      | CEF a =>
        let r := ev m a in
        if match r with RTrue => true | _ => false end then [empty_edge]
        else
          let subq := match r with RUnknown => [mkHedge false (snd (add_target v new_draft (m, p ++ [0])))] | _ => [] end in
          let q := ef_loop c p v (succs m) [] in
          fst q ++ (if snd q then subq else [])
      | CEX a => ex_loop a (p ++ [0]) v (succs m) []
      | CBool _ | CDead | CCmp _ _ _ | CConj _ _ => match ev m root with RTrue => [empty_edge] | _ => [] end
      | _ => []
      end
    end.
End Ctl.
