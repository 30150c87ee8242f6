(** Model of the way from a query to an automaton and back: src/LTL/LTLSearch.cpp,
    include/LTL/LTLValidator.h, src/LTL/Algorithm/LTLToBuchi.cpp, src/LTL/Simplification/SpotToPQL.cpp
    and simplify_ltl_query of src/VerifyPN.cpp.  The library spot is an oracle.  HyperLTL is not
    modelled. *)
From Verif Require Import Base NetSpec PqlSyntax PqlModel LtlSpec LtlQuerySpec.
Set Implicit Arguments.

(** ** LTLValidator.h *)
(** The visitor, LTLValidator.h:63-221: path quantifiers are bad; of an until only the left operand
    is visited (LTLValidator.h:180-182). *)
Fixpoint bad_ltl (c : cond) : bool :=
  match c with
  | CBool _ | CDead | CCmp _ _ _ | CConj _ _ => false
  | CNot c | CG c | CF c | CX c => bad_ltl c
  | CAnd l | COr l => existsb bad_ltl l
  | CU a _ => bad_ltl a
  | _ => true
  end.
(** isLTL, LTLValidator.h:30-63. *)
Definition is_ltl (c : cond) : bool :=
  match c with
  | CA c | CAF c | CAG c | CE c | CEF c | CEG c => negb (bad_ltl c)
  | CEU a b | CAU a b => negb (bad_ltl a) && negb (bad_ltl b)
  | _ => false
  end.

(** ** LTLSearch.cpp *)
(** to_ltl, LTLSearch.cpp:50-105: the path formula and whether the answer is to be negated. *)
Definition to_ltl (c : cond) : cond * bool :=
  match c with
  | CE c => (CNot c, true)
  | CA c => (c, false)
  | CAG c => (CG c, false)
  | CAF c => (CF c, false)
  | CEF c => (CNot (CF c), true)
  | CEG c => (CNot (CG c), true)
  | CAU a b => (CU a b, false)
  | CEU a b => (CNot (CU a b), true)
  | c => (c, false)
  end.

(** ** LTLToBuchi.cpp *)
Definition aps := list (cond * name).
(** APCompression, LTLOptions.h. *)
Inductive compression := CompNone | CompChoose | CompFull.

Section Select.
  Variable visit : cond -> aps -> sform * aps.
  (** The loops over the operands selected by [p], LTLToBuchi.cpp:55-63 and 69-73. *)
  Fixpoint visit_sel (p : cond -> bool) (l : list cond) (st : aps) : list sform * aps :=
    match l with
    | [] => ([], st)
    | e :: l' =>
      if p e then
        let a := visit e st in
        let r := visit_sel p l' (snd a) in
        (fst a :: fst r, snd r)
      else visit_sel p l' st
    end.
End Select.

Section Spot.
  Variable comp : compression.
  (** formulaSize(element) > 250, LTLToBuchi.cpp:274. *)
  Variable big : cond -> bool.
  (** formulaSize(query) < 100, LTLToBuchi.cpp:298. *)
  Variable expand : bool.

  (** make_atomic_prop, LTLToBuchi.cpp:270-294 (without path selection). *)
  Definition make_ap (c : cond) (st : aps) : sform * aps :=
    let t := match comp with
             | CompFull => NIdx (length st)
             | CompChoose => if big c then NIdx (length st) else NText c
             | CompNone => NText c
             end in
    (SAp t, st ++ [(c, t)]).

  (** FormulaToSpotSyntax, LTLToBuchi.cpp:45-268: temporal operands first, then the others, as one
      proposition or expanded.  Quantified operators are treated like the path operators. *)
  Fixpoint to_spot (c : cond) (st : aps) : sform * aps :=
    match c with
    | CBool b => (SBool b, st)
    | CDead | CCmp _ _ _ | CConj _ _ => make_ap c st
    | CNot c => let a := to_spot c st in (SNot (fst a), snd a)
    | CAnd l =>
      let t := visit_sel to_spot temporal l st in
      match filter (fun e => negb (temporal e)) l with
      | [] => (SAnd (fst t), snd t)
      | nt =>
        if expand then
          let n := visit_sel to_spot (fun e => negb (temporal e)) l (snd t) in
          (SAnd (fst t ++ [SAnd (fst n)]), snd n)
        else
          let a := make_ap (CAnd nt) (snd t) in (SAnd (fst t ++ [fst a]), snd a)
      end
    | COr l =>
      let t := visit_sel to_spot temporal l st in
      match filter (fun e => negb (temporal e)) l with
      | [] => (SOr (fst t), snd t)
      | nt =>
        if expand then
          let n := visit_sel to_spot (fun e => negb (temporal e)) l (snd t) in
          (SOr (fst t ++ [SOr (fst n)]), snd n)
        else
          let a := make_ap (COr nt) (snd t) in (SOr (fst t ++ [fst a]), snd a)
      end
    | CX c | CEX c | CAX c => let a := to_spot c st in (SX (fst a), snd a)
    | CF c | CEF c | CAF c => let a := to_spot c st in (SF (fst a), snd a)
    | CG c | CEG c | CAG c => let a := to_spot c st in (SG (fst a), snd a)
    | CU a b | CEU a b | CAU a b =>
      let x := to_spot a st in
      let y := to_spot b (snd x) in
      (SU (fst x) (fst y), snd y)
    | CE c | CA c => to_spot c st
    end.

  Variable translate : sform -> saut.
  Variable dead : list N -> bool.
  (** make_buchi_automaton, LTLToBuchi.cpp:304-340: the automaton of the negation; the last
      condition registered for a number gives its meaning.  A proposition is evaluated by
      EvaluateVisitor (C10); an unknown value would be an exception. *)
  Definition make_buchi (c : cond) : buchi :=
    let a := to_spot c [] in
    let s := translate (SNot (fst a)) in
    mkBuchi (sa_init s) (sa_edges s) (sa_acc s)
      (fun v m => match find (fun e => Nat.eqb (sa_var s (snd e)) v) (rev (snd a)) with
                  | Some (d, _) => match evaluate dead m d with RTrue => true | _ => false end
                  | None => false
                  end).

  (** LTLSearch::LTLSearch and solve, LTLSearch.cpp:133-147 and 223-253; [search] is the chosen
      model checker. *)
  Definition ltl_solve (search : buchi -> res bool) (q : cond) : res bool :=
    if negb (is_ltl q) then Throw
    else
      r <- search (make_buchi (fst (to_ltl q))) ;;
      Ok (xorb r (snd (to_ltl q))).
End Spot.

(** ** SpotToPQL.cpp *)
Definition name_eqb (eqc : cond -> cond -> bool) (s t : name) : bool :=
  match s, t with
  | NIdx i, NIdx j => Nat.eqb i j
  | NText c, NText d => eqc c d
  | _, _ => false
  end.
Section Back.
  (** Equality of printed texts. *)
  Variable eqc : cond -> cond -> bool.
  (** toPQL, SpotToPQL.cpp:30-122; the operators it refuses are not part of [sform]. *)
  Fixpoint to_pql (st : aps) (f : sform) : res cond :=
    match f with
    | SBool b => Ok (CBool b)
    | SAp t => match find (fun e => name_eqb eqc (snd e) t) st with Some (d, _) => Ok d | None => Throw end
    | SNot f => c <- to_pql st f ;; Ok (CNot c)
    | SX f => c <- to_pql st f ;; Ok (CX c)
    | SF f => c <- to_pql st f ;; Ok (CF c)
    | SG f => c <- to_pql st f ;; Ok (CG c)
    | SU f g => a <- to_pql st f ;; b <- to_pql st g ;; Ok (CU a b)
    | SOr l => r <- (fix go l := match l with [] => Ok [] | x :: l' => c <- to_pql st x ;; r <- go l' ;; Ok (c :: r) end) l ;; Ok (COr r)
    | SAnd l => r <- (fix go l := match l with [] => Ok [] | x :: l' => c <- to_pql st x ;; r <- go l' ;; Ok (c :: r) end) l ;; Ok (CAnd r)
    end.
  Variable comp : compression.
  Variable big : cond -> bool.
  (** formulaSize(query) < 100. *)
  Variable small : cond -> bool.
  Variable simp : sform -> sform.
  (** LTL::simplify, SpotToPQL.cpp:124-137; [simp] is tl_simplifier followed by unabbreviate. *)
  Fixpoint spot_simplify (c : cond) : res cond :=
    match c with
    | CE c => r <- spot_simplify c ;; Ok (CE r)
    | CA c => r <- spot_simplify c ;; Ok (CA r)
    | _ => let a := to_spot comp big (small c) c [] in to_pql (snd a) (simp (fst a))
    end.

  (** The rewritings between the calls of LTL::simplify (pushNegation, initialMarkingRW and the
      linear-program simplification: C11, C15), as one step each. *)
  Variables rw1 rw2 : cond -> res cond.
  (** isTriviallyTrue, isTriviallyFalse, VerifyPN.cpp:463. *)
  Definition trivial (c : cond) : bool := match c with CBool _ => true | _ => false end.
  (** simplify_ltl_query, VerifyPN.cpp:396-481. *)
  Definition simplify_ltl_query (q : cond) : res cond :=
    let '(was_a, c) := match q with CA c => (true, c) | CE c => (false, c) | c => (true, c) end in
    c1 <- spot_simplify c ;;
    c2 <- rw1 c1 ;;
    c3 <- spot_simplify c2 ;;
    c4 <- rw2 c3 ;;
    if trivial c4 then Ok c4 else Ok (if was_a then CA c4 else CE c4).
End Back.
