(** The queries the explicit engine for coloured nets answers (C37). *)
From Verif Require Import Base.
Set Implicit Arguments.

(** ExplicitQueryPropositionCompiler.cpp:104-148 (QueryValue: a number or the number of tokens
    of a place) and 26-280 (the compiled propositions).  Simplification: names are resolved
    to indices. *)
Inductive qterm := TLit (k : Z) | TPlace (p : nat).
Inductive kquery :=
| KQAnd (l : list kquery)
| KQOr (l : list kquery)
| KQNot (q : kquery)
| KQLt (l r : qterm)
| KQLe (l r : qterm)
| KQEq (l r : qterm)
| KQNe (l r : qterm)
| KQDead
| KQFire (t : nat).

(** ExplicitQueryCompiler / ExplicitWorklist.h: EF or AG. *)
Inductive quant := QEF | QAG.
