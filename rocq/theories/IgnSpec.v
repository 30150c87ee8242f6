(** Specification for the net without colours (C44): what it means for it to follow the
    coloured net. *)
From Verif Require Import Base NetSpec NetModel ColSyntax ColSpec ExpSpec PqlSyntax PqlSpec.
Set Implicit Arguments.

Section Spec.
Variable n : cpn.

(** The numbers of tokens of a coloured marking, colours forgotten. *)
Definition totals (M : cmark) : marking := map (total n M) (seq 0 (length (cn_pls n))).

(** [m] has the same numbers of tokens; [pidx] is the number of a place in the net. *)
Definition same_tokens (net : cnet) (pidx : nat -> nat) (M : cmark) (m : marking) : Prop :=
  length m = cn_places net /\
  forall p, p < length (cn_pls n) -> tokens m (pidx p) = total n M p.

(** Each place of the coloured net is one place of the net, and the net has no others. *)
Definition same_places (net : cnet) (pidx : nat -> nat) : Prop :=
  cn_places net = length (cn_pls n) /\
  (forall p, p < length (cn_pls n) -> pidx p < cn_places net) /\
  (forall p q, p < length (cn_pls n) -> q < length (cn_pls n) -> pidx p = pidx q -> p = q).

(** Every arc mentions positive numbers. *)
Definition arcs_pos : Prop :=
  forall t tr x, nth_error (cn_trs n) t = Some tr -> In x (ct_in tr ++ ct_out tr) -> apos (snd x).

(** The net follows the coloured net: it starts with the same tokens, and whatever
    sequence of transitions the coloured net fires, the net fires one of the same length
    and has the same numbers of tokens after it. *)
Definition follows (net : cnet) (pidx : nat -> nat) : Prop :=
  same_tokens net pidx (cinit n) (cn_init net) /\
  (forall M t M' m, same_tokens net pidx M m -> cstep n M t M' ->
     exists u m', step (to_pnet net) m u m' /\ same_tokens net pidx M' m').

(** ** Queries about numbers of tokens *)

(** Formulas about numbers of tokens. *)
Fixpoint card (c : cond) : bool :=
  match c with
  | CBool _ | CCmp _ _ _ | CConj _ _ => true
  | CNot c => card c
  | CAnd l | COr l => forallb card l
  | _ => false
  end.

(** Such a formula in a marking (transitions play no role). *)
Definition in_marking (m : marking) (c : cond) : Prop := holds (mkPnet 0 []) (fun _ => m) c.

(** Reachability queries. *)
Fixpoint reach_query (c : cond) : bool :=
  match c with
  | CEF c | CAG c => card c
  | CNot c => reach_query c
  | _ => false
  end.

(** The meaning of a reachability query for the coloured net: [Pl p] is the number of
    tokens of the place [p], over all colours. *)
Fixpoint means (q : cond) : Prop :=
  match q with
  | CEF c => exists M, creach n M /\ in_marking (totals M) c
  | CAG c => forall M, creach n M -> in_marking (totals M) c
  | CNot q => ~ means q
  | _ => False
  end.

End Spec.

(** The places of a formula. *)
Fixpoint expr_places (e : expr) : list nat :=
  match e with
  | Lit _ => []
  | Pl p => [p]
  | Ident e | Minus e => expr_places e
  | Sub e es => expr_places e ++ flat_map expr_places es
  | Plus _ ids es | Mul _ ids es => ids ++ flat_map expr_places es
  end.
Fixpoint places (c : cond) : list nat :=
  match c with
  | CCmp _ a b => expr_places a ++ expr_places b
  | CConj _ cs => map c_place cs
  | CNot c | CEF c | CAG c => places c
  | CAnd l | COr l => flat_map places l
  | _ => []
  end.

(** If a query was simplified to a constant, it is the answer in the initial marking. *)
Definition constant_right (net : cnet) (q s : cond) : Prop :=
  forall b, s = CBool b -> (sat (to_pnet net) (cn_init net) q <-> b = true).
