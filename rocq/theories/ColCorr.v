(** Specification of the correspondence between a coloured net and its unfolding (C34). *)
From Verif Require Import Base BuilderModel BuilderSpec ColSyntax ColSpec ColModel.
From Coq Require Import Permutation.
Set Implicit Arguments.

(** Markings of the coloured net and of the unfolded net that belong together show the
    same tokens: the place unfolded for a colour holds the tokens of that colour, and a
    colour for which no place was created still has its initial tokens. *)
Definition shows (n : cpn) (enc : uname -> nat) (cs : list call) (M : cmark) (U : nat -> N) : Prop :=
  forall p v, p < length (cn_pls n) -> vtyped (cn_types n) (ptype n p) v ->
    let x := enc (UCol p (vnum (cn_types n) (ptype n p) v)) in
    (is_place cs x -> U x = M p v) /\ (~ is_place cs x -> M p v = cinit n p v).

(** [R] relates the initial markings; every step of the coloured net is matched by one of
    the unfolded copies of the same transition and conversely. *)
Definition bisimulation (n : cpn) (cs : list call) (copies : nat -> list nat)
    (R : cmark -> (nat -> N) -> Prop) : Prop :=
  R (cinit n) (init_of cs) /\
  (forall M U t M', R M U -> cstep n M t M' ->
     exists x U', In x (copies t) /\ decl_fires cs x U U' /\ R M' U') /\
  (forall M U x U', R M U -> is_trans cs x -> decl_fires cs x U U' ->
     exists t M', In x (copies t) /\ cstep n M t M' /\ R M' U') /\
  (forall t x, In x (copies t) -> is_trans cs x) /\
  (forall t t' x, In x (copies t) -> In x (copies t') -> t = t').

(** Runs, for the statements about reachable markings. *)
Inductive cruns (n : cpn) : cmark -> list nat -> cmark -> Prop :=
| cr_nil : forall M, cruns n M [] M
| cr_cons : forall M t M' ts M'', cstep n M t M' -> cruns n M' ts M'' -> cruns n M (t :: ts) M''.
Inductive uruns (cs : list call) : (nat -> N) -> list nat -> (nat -> N) -> Prop :=
| ur_nil : forall U, uruns cs U [] U
| ur_cons : forall U x U' xs U'', is_trans cs x -> decl_fires cs x U U' -> uruns cs U' xs U'' -> uruns cs U (x :: xs) U''.

(** No arc of the net is connected to [p]. *)
Definition untouched (n : cpn) (p : nat) : Prop :=
  forall t tr e, nth_error (cn_trs n) t = Some tr -> ~ In (p, e) (ct_in tr) /\ ~ In (p, e) (ct_out tr).

(** No transition has both an input arc and an inhibitor arc from one place. *)
Definition separate (n : cpn) : Prop := forall p t w tr e,
  In (p, t, w) (cn_inh n) -> nth_error (cn_trs n) t = Some tr -> ~ In (p, e) (ct_in tr).

(** Tokens of a set of unfolded places. *)
Definition sumU (enc : uname -> nat) (U : nat -> N) (us : list uname) : N := sumN (map (fun u => U (enc u)) us).

(** What a query about marking [M] of the coloured net is answered from marking [U] of the
    unfolded net: colours, token counts of places (for whatever order the names of the
    unfolded places are iterated in), fireability of transitions and deadlock. *)
Definition agrees (n : cpn) (enc : uname -> nat) (cs : list call) (pl : nat -> list uname) (copies : nat -> list nat)
    (M : cmark) (U : nat -> N) : Prop :=
  shows n enc cs M U /\
  (forall p names, p < length (cn_pls n) -> Permutation names (pl p) ->
     (forall t w, ~ In (p, t, w) (cn_inh n)) \/ untouched n p ->
     exists us, place_query names = Ok us /\ sumU enc U us = total n M p /\
                sumU enc U (bounds_query names) = total n M p) /\
  (forall t, (exists M', cstep n M t M') <-> exists x, In x (copies t) /\ decl_enabled cs x U) /\
  ((exists t M', cstep n M t M') <-> exists x, is_trans cs x /\ decl_enabled cs x U).
