(** Specification of the removal of redundant places from coloured nets (C47). *)
From Verif Require Import Base ColSyntax ColSpec ColModel ColRedModel ColRedSpec.
Set Implicit Arguments.

(** Both nets can fire the same sequences of transitions, with the same tokens on the places
    that are left. *)
Definition same_but_removed (r r' : rnet) : Prop :=
  covers r r' /\
  forall ts M', rrun r' ts M' -> exists M, rrun r ts M /\ forall p v, ~ In p (r_pls r') -> M' p v = M p v.
(** No variable has tuples as values. *)
Definition plain_vars (n : cpn) : Prop := forall v ty, nth_error (cn_vars n) v = Some ty -> 0 < esize (cn_types n) ty.
