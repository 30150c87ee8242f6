(** Model of the check with the net without colours of queries about numbers of tokens
    (src/PetriEngine/ExplicitColored/ExplicitColoredModelChecker.cpp). *)
From Verif Require Import Base NetModel PqlSyntax PqlModel QueryModel.
Set Implicit Arguments.

Section Check.
Variable net : cnet.
Variable fuel : nat.
(** simplify_queries on the two queries (C15). *)
Variable simplify : cond -> cond -> cond * cond.

(** ExplicitColoredModelChecker.h: Result. *)
Inductive verdict := Satisfied | Unsatisfied | Unknown.

(** The places of the query get their numbers in the net: contextAnalysis (lines 192,
    208).  Simplification: this happens before the negations are pushed, not after it. *)
Section Rename.
Variable f : nat -> nat.
Fixpoint rename_expr (e : expr) : expr :=
  match e with
  | Lit z => Lit z
  | Pl p => Pl (f p)
  | Ident e => Ident (rename_expr e)
  | Minus e => Minus (rename_expr e)
  | Sub e es => Sub (rename_expr e) (map rename_expr es)
  | Plus c ids es => Plus c (map f ids) (map rename_expr es)
  | Mul c ids es => Mul c (map f ids) (map rename_expr es)
  end.
Fixpoint rename (c : cond) : cond :=
  match c with
  | CCmp o a b => CCmp o (rename_expr a) (rename_expr b)
  | CConj n cs => CConj n (map (fun x => mkCons (f (c_place x)) (c_lower x) (c_upper x)) cs)
  | CNot c => CNot (rename c)
  | CAnd l => CAnd (map rename l)
  | COr l => COr (map rename l)
  | CEF c => CEF (rename c)
  | CAG c => CAG (rename c)
  | _ => c
  end.
End Rename.

Definition m0 : list N := cn_init net.
(** Lines 191, 199, 204: pushNegation without rewriting for the initial marking. *)
Definition pushed (c : cond) : res cond := push (net_deadb net) m0 false fuel false false c.

(** Lines 209-223. *)
Definition decide_initially (c : cond) : cond :=
  match evaluate (net_deadb net) m0 c with
  | RFalse => CBool false
  | RTrue => CBool true
  | RUnknown => c
  end.

Definition is_true (c : cond) : bool := match c with CBool b => b | _ => false end.
Definition is_false (c : cond) : bool := match c with CBool b => negb b | _ => false end.

(** Lines 190-223: the two queries given to the simplification, and isEf. *)
Definition prepared (q : cond) : res (cond * cond * bool) :=
  q0 <- pushed q ;;
  let is_ef := match q0 with CEF _ => true | _ => false end in
  q1 <- match q0 with
        | CEF c => pushed (CAG c)
        | CNot (CEF c) => pushed (CAG c)
        | _ => Ok q0
        end ;;
  Ok (decide_initially q0, decide_initially q1, is_ef).

(** Lines 182-239 checkCardinalityColorIgnorantLP. *)
Definition check_cardinality (q : cond) : res verdict :=
  r <- prepared q ;;
  let '(q0, q1, is_ef) := r in
  let '(s0, s1) := simplify q0 q1 in
  Ok (if is_true s0 && negb is_ef then Satisfied
      else if is_false s0 && is_ef then Unsatisfied
      else if is_true s1 && negb is_ef then Unsatisfied
      else if is_true s1 && is_ef then Satisfied
      else Unknown).
End Check.
