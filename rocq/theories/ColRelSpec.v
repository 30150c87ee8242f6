(** Specification of the removal of what is irrelevant from coloured nets (C49). *)
From Verif Require Import Base ColSyntax ColSpec ColModel ColRedModel ColRedSpec.
Set Implicit Arguments.

(** The same tokens can be on the places of the query. *)
Definition same_tokens (used_p : nat -> bool) (n : cpn) (r' : rnet) : Prop :=
  (forall M, rreach (mkR n [] []) M -> exists M', rreach r' M' /\ forall p v, p < length (cn_pls n) -> used_p p = true -> M' p v = M p v) /\
  (forall M', rreach r' M' -> exists M, rreach (mkR n [] []) M /\ forall p v, p < length (cn_pls n) -> used_p p = true -> M' p v = M p v).

(** The transition has an arc from or to the place. *)
Definition near (n : cpn) (t q : nat) : Prop := exists tr, nth_error (cn_trs n) t = Some tr /\ (In q (map fst (ct_in tr)) \/ In q (map fst (ct_out tr))).
(** No transition of the query has an arc from or to a place of the query, or from or to a place
    from which another transition of the query takes tokens. *)
Definition apart (used_t used_p : nat -> bool) (n : cpn) : Prop := forall t, used_t t = true ->
  (forall q, used_p q = true -> ~ near n t q) /\
  forall t' tr' q, used_t t' = true -> t' <> t -> nth_error (cn_trs n) t' = Some tr' -> In q (map fst (ct_in tr')) -> ~ near n t q.
