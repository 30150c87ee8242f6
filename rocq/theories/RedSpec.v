(** Specification for the structural reductions: the behaviour of the builder's net, and what
    it means that a reduced net cannot be told apart through the protected places. *)
From Verif Require Import Base NetSpec BuilderModel.
Set Implicit Arguments.

(** The net of the transitions that are not removed. *)
Definition live_net (b : builder) : pnet :=
  mkPnet (length (b_places b))
         (map (fun x => mkTrans (bt_pre x) (bt_post x)) (filter (fun x => negb (bt_skip x)) (b_trans b))).
Definition reach (b : builder) (m : marking) : Prop := reachable (live_net b) (b_init b) m.

(** A property of markings that looks at the protected places only. *)
Definition about (inq : nat -> bool) (f : marking -> Prop) : Prop :=
  forall m m', (forall p, inq p = true -> tokens m p = tokens m' p) -> f m -> f m'.
(** The two nets reach markings with the same properties of the protected places. *)
Definition same_views (inq : nat -> bool) (b b' : builder) : Prop :=
  forall f, about inq f -> ((exists m, reach b m /\ f m) <-> (exists m, reach b' m /\ f m)).

(** Consistency of the builder (Reducer.cpp:241-301, consistent): the vectors of arcs and of
    transitions at a place are strictly sorted and agree with each other, removed transitions
    have no arcs, arcs have positive weights and lead to places that are not removed, and the
    inhibitor flags are set where there are inhibitor arcs. *)
Fixpoint sorted (l : list nat) : Prop :=
  match l with
  | [] => True
  | x :: l' => (forall y, In y l' -> x < y) /\ sorted l'
  end.
Record good (b : builder) : Prop := {
  g_np : length (b_places b) = length (b_pnames b);
  g_nt : length (b_trans b) = length (b_tnames b);
  g_ni : length (b_init b) = length (b_pnames b);
  g_pn : NoDup (b_pnames b);
  g_tn : NoDup (b_tnames b);
  g_skip : forall t, bt_skip (tr_of b t) = true -> bt_pre (tr_of b t) = [] /\ bt_post (tr_of b t) = [];
  g_pre : forall t a, In a (bt_pre (tr_of b t)) ->
          bp_skip (pl_of b (arc_place a)) = false /\ (0 < arc_weight a)%N /\
          (arc_inhib a = true -> bt_inhib (tr_of b t) = true /\ bp_inhib (pl_of b (arc_place a)) = true);
  g_post : forall t a, In a (bt_post (tr_of b t)) ->
          bp_skip (pl_of b (arc_place a)) = false /\ (0 < arc_weight a)%N /\ arc_inhib a = false;
  g_spre : forall t, sorted (map arc_place (bt_pre (tr_of b t)));
  g_spost : forall t, sorted (map arc_place (bt_post (tr_of b t)));
  g_scons : forall p, sorted (bp_cons (pl_of b p));
  g_sprod : forall p, sorted (bp_prod (pl_of b p));
  g_cons : forall p t, In t (bp_cons (pl_of b p)) <-> In p (map arc_place (bt_pre (tr_of b t)));
  g_prod : forall p t, In t (bp_prod (pl_of b p)) <-> In p (map arc_place (bt_post (tr_of b t)))
}.

(** The outcome of a rule on a consistent builder: a consistent builder that cannot be told
    apart through the protected places ([Throw]: a 32-bit number would overflow). *)
Definition sound_result (inq : nat -> bool) (b : builder) (r : res builder) : Prop :=
  match r with
  | Ok b' => good b' /\ same_views inq b b'
  | Throw => True
  | UB | NoFuel => False
  end.

(** The identifiers that may be used for new transitions (Reducer.cpp, _skippedTransitions):
    different ones, all of removed transitions. *)
Definition free (b : builder) (sk : list nat) : Prop := NoDup sk /\ forall t, In t sk -> t < length (b_trans b) /\ bt_skip (tr_of b t) = true.
(** The outcome of a rule that makes new transitions. *)
Definition sound_new (inq : nat -> bool) (b : builder) (r : res (builder * list nat)) : Prop :=
  match r with
  | Ok (b', sk') => good b' /\ free b' sk' /\ same_views inq b b'
  | Throw => True
  | UB | NoFuel => False
  end.
