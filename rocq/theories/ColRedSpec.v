(** Specification of the removal of dead transitions from coloured nets (C46). *)
From Verif Require Import Base ColSyntax ColSpec ColModel ColRedModel.
Set Implicit Arguments.

(** A step of a net from which transitions have been removed. *)
Definition rstep (r : rnet) (M : cmark) (t : nat) (M' : cmark) : Prop := ~ In t (r_trs r) /\ cstep (r_net r) M t M'.
Inductive rreach (r : rnet) : cmark -> Prop :=
| reach_init : forall M, (forall p v, M p v = cinit (r_net r) p v) -> rreach r M
| reach_step : forall M t M', rreach r M -> rstep r M t M' -> rreach r M'.

(** At most one arc for every place; the variables of a transition are given. *)
Definition one_arc (l : list (nat * aexp)) : Prop := NoDup (map fst l).
Definition arcs_once (n : cpn) : Prop := forall t tr, nth_error (cn_trs n) t = Some tr -> one_arc (ct_in tr) /\ one_arc (ct_out tr).
Definition vars_ok (n : cpn) (vs : nat -> list nat) : Prop :=
  forall t tr, nth_error (cn_trs n) t = Some tr -> incl (tvars tr) (vs t) /\ forall v, In v (vs t) -> v < length (cn_vars n).
(** Expressions that are taken as equal mean the same. *)
Definition same_ok (n : cpn) (same : aexp -> aexp -> bool) : Prop :=
  forall x y, same x y = true -> forall b v, mval (cn_types n) (cn_vars n) b x v = mval (cn_types n) (cn_vars n) b y v.
(** Every transition that takes tokens from a place not in the query also puts tokens on it. *)
Definition puts_back (n : cpn) (used_p : nat -> bool) : Prop :=
  forall p, used_p p = true \/ forall t tr, nth_error (cn_trs n) t = Some tr -> In p (map fst (ct_in tr)) -> In p (map fst (ct_out tr)).
(** The reduced net has the same reachable markings and in each of them the same steps. *)
Definition same_runs (r r' : rnet) : Prop :=
  (forall M, rreach r M <-> rreach r' M) /\ forall M, rreach r M -> forall t M', rstep r M t M' <-> rstep r' M t M'.

(** Runs with the transitions fired. *)
Inductive rrun (r : rnet) : list nat -> cmark -> Prop :=
| run_init : forall M, (forall p v, M p v = cinit (r_net r) p v) -> rrun r [] M
| run_step : forall ts M t M', rrun r ts M -> rstep r M t M' -> rrun r (ts ++ [t]) M'.
(** Everything the net can do the reduced net can do as well, with the same tokens on the
    places that are left. *)
Definition covers (r r' : rnet) : Prop :=
  forall ts M, rrun r ts M -> exists M', rrun r' ts M' /\ forall p v, ~ In p (r_pls r') -> M' p v = M p v.
