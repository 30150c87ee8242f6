(** Sequences of candidates: any rules, at any candidates, in any order, as the loops of
    Reducer::Reduce (Reducer.cpp:2840-3013) and of the rules run them; the timer may stop them
    after any candidate. *)
From Verif Require Import Base NetSpec NetModel BuilderModel RedModel RedModelH RedModelB.
Set Implicit Arguments.

(** The rules that keep every property of the protected places. *)
Inductive candidate :=
| TryA (t : nat) | TryF (p : nat) | TryFNO (p : nat) | TryG (loops consumers : bool) (t : nat)
| TryJ (p : nat) | TryL (t1 t2 : nat) | TryQ (t : nat) | TryEFMNOP
| TryD (reach loops : bool) (p t1 t2 : nat) | TryD0 (t1 t2 : nat)
| TryC (p1 p2 : nat) | TryM | TryI (consumers : bool) | TryH (all_ltl : bool) (t : nat)
| TryB (deadlocks consumers : bool) (p : nat).
Definition try_rule (inq : nat -> bool) (b : builder) (c : candidate) : res builder :=
  match c with
  | TryA t => rule_a inq b t
  | TryF p => rule_f inq b p
  | TryFNO p => rule_fno inq b p
  | TryG lo co t => rule_g inq lo co b t
  | TryJ p => rule_j inq b p
  | TryL t1 t2 => rule_l b t1 t2
  | TryQ t => rule_q inq b t
  | TryEFMNOP => rule_efmnop inq b
  | TryD reach loops p t1 t2 => rule_d inq reach loops b p t1 t2
  | TryD0 t1 t2 => rule_d0 b t1 t2
  | TryC p1 p2 => rule_c inq b p1 p2
  | TryM => rule_m inq b
  | TryI rc => rule_i inq rc b
  | TryH ltl t => rule_h inq ltl b t
  | TryB rdl rc p => rule_b inq rdl rc b p
  end.
(** Every arc weight is below the sentinel of rule J. *)
Definition small_weights (b : builder) : Prop :=
  forall t a, In a (bt_pre (tr_of b t)) \/ In a (bt_post (tr_of b t)) -> (arc_weight a < 4294967295)%N.
(** Every product of two arc weights fits 32 bits, as rules C and D assume. *)
Definition weights16 (b : builder) : Prop := forall t a, In a (bt_pre (tr_of b t)) \/ In a (bt_post (tr_of b t)) -> (arc_weight a < 65536)%N.
(** No place has inhibitor arcs: rules C and D only look at some of the inhibitor arcs. *)
Definition no_inhibitors (b : builder) : Prop := forall p, bp_inhib (pl_of b p) = false.
(** A transition that puts enough tokens on a place to disable an inhibitor arc does not take
    more of them away than it puts back: rule I looks at one of the two only. *)
Definition loops_grow (b : builder) : Prop :=
  forall u a t i o, In a (bt_pre (tr_of b u)) -> arc_inhib a = true -> in_arc b (arc_place a) t = Some i -> out_arc b t (arc_place a) = Some o ->
    arc_inhib i = false -> (arc_weight a <= arc_weight o)%N -> (arc_weight i <= arc_weight o)%N.
(** What rule B needs of the only consumer of a place.  A consumer that takes from this place
    alone: the initial tokens or the tokens of all producers are whole portions of it.  Any
    other consumer: each producer puts at most one portion, and takes from places without
    inhibitor arcs. *)
Definition b_fair (b : builder) (p : nat) : Prop :=
  forall t a, bp_cons (pl_of b p) = [t] -> in_arc b p t = Some a ->
    if length (bt_pre (tr_of b t)) =? 1
    then (init_at b p mod arc_weight a = 0)%N \/ forall u o, out_arc b u p = Some o -> (arc_weight o mod arc_weight a = 0)%N
    else forall u o, out_arc b u p = Some o -> (arc_weight o <= arc_weight a)%N /\ forall x, In x (bt_pre (tr_of b u)) -> bp_inhib (pl_of b (arc_place x)) = false.
(** What the loops guarantee of a candidate: transitions are in range; rule J is only considered
    for nets with small weights.  Rule D is considered with weights whose products do not wrap
    and, when a larger effect is accepted, for nets without inhibitor arcs.  Rule C is
    considered for a first place without inhibitor arcs. *)
Definition fair (b : builder) (c : candidate) : Prop :=
  match c with
  | TryG _ _ t => t < length (b_trans b)
  | TryL t1 t2 => t1 < length (b_trans b) /\ t2 < length (b_trans b)
  | TryJ _ => small_weights b
  | TryD _ loops _ _ _ => weights16 b /\ (loops = true -> no_inhibitors b)
  | TryC p1 _ => bp_inhib (pl_of b p1) = false
  | TryI _ => loops_grow b
  | TryB _ _ p => b_fair b p
  | _ => True
  end.
Inductive reduced (inq : nat -> bool) : builder -> builder -> Prop :=
| rd_nil : forall b, reduced inq b b
| rd_cons : forall b c b1 b2, fair b c -> try_rule inq b c = Ok b1 -> reduced inq b1 b2 -> reduced inq b b2.
