(** Formulas of PQL after name resolution, as built in include/PetriEngine/PQL/Expressions.h.
    Shared by the specification of their meaning (PqlSpec) and the model of the code. *)
From Verif Require Import Base.
Set Implicit Arguments.

(** Expressions, Expressions.h:227-470.  [Ident e] is an IdentifierExpr with compiled
    expression [e]; [Pl p] an UnfoldedIdentifierExpr with offset [p]; sums and products
    (CommutativeExpr) carry a constant, a list of places and a list of other operands.
    A SubtractExpr has at least one operand.  PathSelectExpr (HyperLTL) is not modelled. *)
Inductive expr :=
| Lit (z : Z)
| Pl (p : nat)
| Ident (e : expr)
| Minus (e : expr)
| Sub (e : expr) (es : list expr)
| Plus (c : Z) (ids : list nat) (es : list expr)
| Mul (c : Z) (ids : list nat) (es : list expr).

(** Comparison operators: EqualCondition, NotEqualCondition, LessThanCondition,
    LessThanOrEqualCondition. *)
Inductive cmp := OpEq | OpNe | OpLt | OpLe.

(** CompareConjunction::cons_t, Expressions.h:826-830 (without the name). *)
Record cons := mkCons { c_place : nat; c_lower : N; c_upper : N }.
(** numeric_limits<uint32_t>::max(), meaning "no upper bound". *)
Definition u32max : N := (2 ^ 32 - 1)%N.

(** Conditions.  Place bounds, synthesis (control) and HyperLTL are not part of this type;
    shallow conditions (fireability, liveness, ...) are represented by what they compile
    to. *)
Inductive cond :=
| CBool (b : bool)
| CDead
| CNot (c : cond)
| CAnd (l : list cond)
| COr (l : list cond)
| CCmp (o : cmp) (a b : expr)
| CConj (neg : bool) (cs : list cons)
| CEX (c : cond) | CAX (c : cond)
| CEF (c : cond) | CAF (c : cond)
| CEG (c : cond) | CAG (c : cond)
| CEU (a b : cond) | CAU (a b : cond)
| CE (c : cond) | CA (c : cond)
| CF (c : cond) | CG (c : cond) | CX (c : cond) | CU (a b : cond).

(** Induction with the operands of lists. *)
Section ExprInd.
  Variable P : expr -> Prop.
  Hypothesis HLit : forall z, P (Lit z).
  Hypothesis HPl : forall p, P (Pl p).
  Hypothesis HIdent : forall e, P e -> P (Ident e).
  Hypothesis HMinus : forall e, P e -> P (Minus e).
  Hypothesis HSub : forall e es, P e -> Forall P es -> P (Sub e es).
  Hypothesis HPlus : forall c ids es, Forall P es -> P (Plus c ids es).
  Hypothesis HMul : forall c ids es, Forall P es -> P (Mul c ids es).
  Fixpoint expr_ind' (e : expr) : P e :=
    let fix all (l : list expr) : Forall P l :=
      match l with
      | [] => Forall_nil P
      | x :: l' => Forall_cons x (expr_ind' x) (all l')
      end in
    match e with
    | Lit z => HLit z
    | Pl p => HPl p
    | Ident e => HIdent (expr_ind' e)
    | Minus e => HMinus (expr_ind' e)
    | Sub e es => HSub (expr_ind' e) (all es)
    | Plus c ids es => HPlus c ids (all es)
    | Mul c ids es => HMul c ids (all es)
    end.
End ExprInd.

Section CondInd.
  Variable P : cond -> Prop.
  Hypothesis HBool : forall b, P (CBool b).
  Hypothesis HDead : P CDead.
  Hypothesis HNot : forall c, P c -> P (CNot c).
  Hypothesis HAnd : forall l, Forall P l -> P (CAnd l).
  Hypothesis HOr : forall l, Forall P l -> P (COr l).
  Hypothesis HCmp : forall o a b, P (CCmp o a b).
  Hypothesis HConj : forall n cs, P (CConj n cs).
  Hypothesis HEX : forall c, P c -> P (CEX c).
  Hypothesis HAX : forall c, P c -> P (CAX c).
  Hypothesis HEF : forall c, P c -> P (CEF c).
  Hypothesis HAF : forall c, P c -> P (CAF c).
  Hypothesis HEG : forall c, P c -> P (CEG c).
  Hypothesis HAG : forall c, P c -> P (CAG c).
  Hypothesis HEU : forall a b, P a -> P b -> P (CEU a b).
  Hypothesis HAU : forall a b, P a -> P b -> P (CAU a b).
  Hypothesis HE : forall c, P c -> P (CE c).
  Hypothesis HA : forall c, P c -> P (CA c).
  Hypothesis HF : forall c, P c -> P (CF c).
  Hypothesis HG : forall c, P c -> P (CG c).
  Hypothesis HX : forall c, P c -> P (CX c).
  Hypothesis HU : forall a b, P a -> P b -> P (CU a b).
  Fixpoint cond_ind' (c : cond) : P c :=
    let fix all (l : list cond) : Forall P l :=
      match l with
      | [] => Forall_nil P
      | x :: l' => Forall_cons x (cond_ind' x) (all l')
      end in
    match c with
    | CBool b => HBool b
    | CDead => HDead
    | CNot c => HNot (cond_ind' c)
    | CAnd l => HAnd (all l)
    | COr l => HOr (all l)
    | CCmp o a b => HCmp o a b
    | CConj n cs => HConj n cs
    | CEX c => HEX (cond_ind' c)
    | CAX c => HAX (cond_ind' c)
    | CEF c => HEF (cond_ind' c)
    | CAF c => HAF (cond_ind' c)
    | CEG c => HEG (cond_ind' c)
    | CAG c => HAG (cond_ind' c)
    | CEU a b => HEU (cond_ind' a) (cond_ind' b)
    | CAU a b => HAU (cond_ind' a) (cond_ind' b)
    | CE c => HE (cond_ind' c)
    | CA c => HA (cond_ind' c)
    | CF c => HF (cond_ind' c)
    | CG c => HG (cond_ind' c)
    | CX c => HX (cond_ind' c)
    | CU a b => HU (cond_ind' a) (cond_ind' b)
    end.
End CondInd.
