(** Model of the check with the net without colours of queries about fireable transitions
    (src/PetriEngine/ExplicitColored/ExplicitColoredModelChecker.cpp:108-180). *)
From Verif Require Import Base NetModel BuilderModel PqlSyntax PqlModel QueryModel SearchModel ColSyntax IgnModel IgnCheck.
Set Implicit Arguments.

(** ** Queries *)

(** Formulas about fireable transitions, before they are compiled. *)
Inductive fform :=
| FBool (b : bool)
| FFire (t : nat)
| FNot (f : fform)
| FAnd (l : list fform)
| FOr (l : list fform).
Inductive fquery :=
| QEF (f : fform)
| QAG (f : fform)
| QNot (q : fquery).

(** contextAnalysis (line 117; Analyze.cpp:153-192): a fireability proposition becomes the
    condition of the transition of that name.  [tidx] is the number of a transition.
    Simplification: the propositions are compiled before the negations are pushed, not
    after it; a proposition that is not compiled is a leaf for pushNegation. *)
Section Compile.
Variable net : cnet.
Variable tidx : nat -> nat.
Fixpoint fcompile (f : fform) : res cond :=
  let fix all (l : list fform) : res (list cond) :=
    match l with
    | [] => Ok []
    | x :: l' => c <- fcompile x ;; r <- all l' ;; Ok (c :: r)
    end in
  match f with
  | FBool b => Ok (CBool b)
  | FFire t => fireable net (tidx t)
  | FNot f => c <- fcompile f ;; Ok (CNot c)
  | FAnd l => cs <- all l ;; Ok (CAnd cs)
  | FOr l => cs <- all l ;; Ok (COr cs)
  end.
Fixpoint qcompile (q : fquery) : res cond :=
  match q with
  | QEF f => c <- fcompile f ;; Ok (CEF c)
  | QAG f => c <- fcompile f ;; Ok (CAG c)
  | QNot q => c <- qcompile q ;; Ok (CNot c)
  end.
End Compile.

(** ** Evaluation: IgnorantFireabilityVisitor.cpp *)
Section Eval.
Variable m : list N.
(** 31-41 AndCondition, 43-54 OrCondition. *)
Section Ops.
Variable f : cond -> tv.
Fixpoint all_of (l : list cond) (r : tv) : tv :=
  match l with
  | [] => r
  | c :: l' => match f c with RFalse => RFalse | RUnknown => all_of l' RUnknown | RTrue => all_of l' r end
  end.
Fixpoint any_of (l : list cond) (r : tv) : tv :=
  match l with
  | [] => r
  | c :: l' => match f c with RTrue => RTrue | RUnknown => any_of l' RUnknown | RFalse => any_of l' r end
  end.
End Ops.
(** 57-71 CompareConjunction; the upper bounds are not looked at. *)
Definition lowers (cs : list cons) : bool := forallb (fun c => (c_lower c <=? nth (c_place c) m 0)%N) cs.
Definition tneg (v : tv) : tv := match v with RUnknown => RUnknown | RFalse => RTrue | RTrue => RFalse end.
(** The value of a negation is only negated above EF (89-101).  Simplification: the
    operators the visitor has no function for do not occur and count as unknown. *)
Fixpoint fire_eval (c : cond) : tv :=
  match c with
  | CBool b => tvb b
  | CConj n cs => if lowers cs then RUnknown else if n then RTrue else RFalse
  | CAnd l => all_of fire_eval l RTrue
  | COr l => any_of fire_eval l RFalse
  | CEF c => fire_eval c
  | CNot c => match c with CEF _ => tneg (fire_eval c) | _ => fire_eval c end
  | _ => RUnknown
  end.
End Eval.

(** ** Search *)
Section Search.
Variable net : cnet.
Variable fuel : nat.
(** FireabilitySearch.cpp:17: whether the time is up at the i-th check. *)
Variable timeout : nat -> bool.
(** The waiting list of the search (RDFS): which element is taken, from how many (modulo
    their number), after i checks. *)
Variable pick : nat -> nat -> nat.

(** FireabilitySearch.cpp:12-40 checkQueries: the results, and whether all are done. *)
Fixpoint check_each (m : list N) (qs : list cond) (rs : list rslt) : list rslt * bool :=
  match qs, rs with
  | q :: qs', r :: rs' =>
    let '(rs'', d) := check_each m qs' rs' in
    if is_unknown r then
      match fire_eval m q with
      | RTrue => (SearchModel.Satisfied :: rs'', d)
      | RUnknown => (Ignore :: rs'', d)
      | RFalse => (r :: rs'', false)
      end
    else (r :: rs'', d)
  | _, _ => ([], true)
  end.
Definition check_queries (i : nat) (m : list N) (qs : list cond) (rs : list rslt) : list rslt * bool :=
  if timeout i then (map (fun _ => Ignore) rs, true) else check_each m qs rs.

(** ReachabilitySearch.h:140-229, tryReach, without bound on the tokens: every marking is
    checked when it is stored.  The successors are those of the successor generator;
    when it throws (more than 2^32-1 tokens), the markings before it were stored. *)
Definition same (a b : list N) : bool := if list_eq_dec N.eq_dec a b then true else false.
Fixpoint store (qs : list cond) (ms seen wait : list (list N)) (rs : list rslt) (i : nat) : list (list N) * list (list N) * list rslt * nat * bool :=
  match ms with
  | [] => (seen, wait, rs, i, false)
  | m :: ms' =>
    if existsb (same m) seen then store qs ms' seen wait rs i
    else
      let '(rs', d) := check_queries i m qs rs in
      if d then (m :: seen, m :: wait, rs', S i, true)
      else store qs ms' (m :: seen) (m :: wait) rs' (S i)
  end.
Definition finish (rs : list rslt) : list rslt := map (fun r => if is_unknown r then NotSatisfied else r) rs.
Fixpoint explore (steps : nat) (qs : list cond) (seen wait : list (list N)) (rs : list rslt) (i : nat) : res (list rslt) :=
  match steps with
  | 0 => NoFuel
  | S steps' =>
    match wait with
    | [] => Ok (finish rs)
    | _ =>
      let k := pick i (length wait) mod length wait in
      let '(l, e) := net_stream net (nth k wait []) in
      let wait' := firstn k wait ++ skipn (S k) wait in
      let '(seen', wait'', rs', i', d) := store qs (map snd l) seen wait' rs i in
      if d then Ok rs' else u <- e ;; explore steps' qs seen' wait'' rs' i'
    end
  end.
Definition fire_search (steps : nat) (qs : list cond) : res (list rslt) :=
  let '(rs, d) := check_queries 0 (cn_init net) qs (map (fun _ => SearchModel.Unknown) qs) in
  if d then Ok rs else explore steps qs [cn_init net] [cn_init net] rs 1.

(** ExplicitColoredModelChecker.cpp:108-180 checkFireabilityColorIgnorantLP.  Copying a
    query (lines 120-123) is the identity. *)
Definition check_fireability (steps : nat) (q : cond) : res verdict :=
  q0 <- pushed net fuel q ;;
  match (match q0 with CEF a => Some (true, a) | CNot (CEF a) => Some (false, a) | _ => None end) with
  | None => Ok Unknown
  | Some (is_ef, a) =>
    qa <- pushed net fuel (CAG a) ;;
    qe <- pushed net fuel (CEF a) ;;
    rs <- fire_search steps [qa; qe; q0] ;;
    Ok (match rs with
        | r0 :: r1 :: _ =>
          match r0, r1 with
          | SearchModel.Satisfied, _ => if is_ef then Satisfied else Unsatisfied
          | _, NotSatisfied => if is_ef then Unsatisfied else Satisfied
          | _, _ => Unknown
          end
        | _ => Unknown
        end)
  end.
End Search.
