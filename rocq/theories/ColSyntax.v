(** Coloured nets as the unfolder receives them (C34): colour types, expressions, places,
    transitions and inhibitor arcs. *)
From Verif Require Import Base.
Set Implicit Arguments.

(** Colors.h:120-200 ColorType (an enumeration of n colours) and 202-300 ProductType.
    A type is known by its index in the table (its address in the code); index 0 is
    ColorType::dotInstance().  Simplification: the constituents of a product are
    enumerations (no nested products). *)
Inductive tdecl :=
| TEnum (n : nat)
| TProd (cs : list nat).

(** Expressions.h:37-200: colour expressions.  [EUser ty i] is the colour with number [i]
    of type [ty]. *)
Inductive cexp :=
| EDot
| EVar (v : nat)
| EUser (ty i : nat)
| ESucc (e : cexp)
| EPred (e : cexp)
| ETup (es : list cexp).

(** Expressions.h:202-290: guards. *)
Inductive gexp :=
| GLt (l r : cexp)
| GLe (l r : cexp)
| GEq (l r : cexp)
| GNe (l r : cexp)
| GAnd (l r : gexp)
| GOr (l r : gexp).

(** Expressions.h:325-470: arc expressions. *)
Inductive aexp :=
| ANum (es : list cexp) (n : N)
| AAdd (es : list aexp)
| ASub (l r : aexp)
| AScal (e : aexp) (k : N).

(** ColoredNetStructures.h:36-85.  [cp_init] is the expression of the initial marking
    (PNMLParser.cpp:696-702), absent for an unmarked place.  Simplification: no place or
    transition is marked skipped (the coloured reductions have not run). *)
Record cplace := mkCP { cp_type : nat; cp_init : option aexp }.
Record ctrans := mkCT {
  ct_guard : option gexp;
  ct_in : list (nat * aexp);
  ct_out : list (nat * aexp);
  ct_player : Z }.

(** [cn_types] is the table of types, [cn_map] the types in the order in which the
    unordered_map of colour types is iterated, [cn_vars] the type of each variable,
    [cn_inh] the inhibitor arcs (place, transition, weight). *)
Record cpn := mkCpn {
  cn_types : list tdecl;
  cn_map : list nat;
  cn_vars : list nat;
  cn_pls : list cplace;
  cn_trs : list ctrans;
  cn_inh : list (nat * nat * N) }.
