(** What the engines have to answer, and the form of the queries. *)
From Verif Require Import Base NetSpec PqlSyntax PqlSpec PqlModel SearchModel QuerySpec.
Set Implicit Arguments.

(** The goal [g] can be reached from [m0]. *)
Definition attainable (net : pnet) (m0 : marking) (g : cond) : Prop :=
  exists m, reachable net m0 m /\ sat net m g.

(** A search for goals answers right: a result that is not Unknown is what the handler makes of
    the right answer, and results stay Unknown only if the handler ended the search. *)
Definition search_right (net : pnet) (m0 : marking) (G : cond -> Prop)
    (reach : list nat -> list cond -> (nat -> rslt -> rslt * bool) -> res (list rslt)) : Prop :=
  forall pos goals handle rs,
    (forall g, In g goals -> atomic g = true /\ G g) ->
    (forall i r, r <> Unknown -> fst (handle i r) <> Unknown) ->
    reach pos goals handle = Ok rs ->
    length rs = length goals /\
    (forall i g, nth_error goals i = Some g ->
       nth i rs Unknown = Unknown \/
       attainable net m0 g /\ nth i rs Unknown = fst (handle i Satisfied) \/
       ~ attainable net m0 g /\ nth i rs Unknown = fst (handle i NotSatisfied)) /\
    (forall i, i < length goals -> nth i rs Unknown = Unknown ->
       exists j v, j < length goals /\ nth j rs Unknown = fst (handle j v) /\ nth j rs Unknown <> Unknown /\ snd (handle j v) = true).

(** A decision procedure answers right for the queries of a class. *)
Definition decides (net : pnet) (m0 : marking) (D : cond -> Prop) (f : list nat -> cond -> res bool) : Prop :=
  forall pos c b, D c -> f pos c = Ok b -> (b = true <-> sat net m0 c).

(** No negation of a negation. *)
Fixpoint one_neg (c : cond) : bool :=
  match c with
  | CBool _ | CDead | CCmp _ _ _ | CConj _ _ => true
  | CNot (CNot _) => false
  | CNot c | CEX c | CAX c | CEF c | CAF c | CEG c | CAG c | CE c | CA c | CF c | CG c | CX c => one_neg c
  | CAnd l | COr l => forallb one_neg l
  | CEU a b | CAU a b | CU a b => one_neg a && one_neg b
  end.
