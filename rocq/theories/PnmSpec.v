(** Specification for C43: what a PNML file of a net without colours describes.  Uses the trees of
    PnmModel (X, tag, attr, value, kids), and nothing else of the model. *)
From Coq Require Import Ascii String.
From Verif Require Import Base NetSpec PnmModel XqSpec.
Set Implicit Arguments.
Local Open Scope string_scope.

(** ** Numbers: digits between blanks *)
Inductive blanks : string -> Prop :=
| bl_nil : blanks ""
| bl_space : forall s, blanks s -> blanks (String " " s)
| bl_tab : forall s, blanks s -> blanks (String "009" s).
Inductive numeral : string -> N -> Prop :=
| nume : forall l d r n, blanks l -> natural d = Some (Z.of_N n) -> blanks r -> numeral (l ++ d ++ r) n.

(** The text of an element: that of the only text or value element below it. *)
Definition text_tag (x : xml) : Prop := tag x = "text" \/ tag x = "value".
Inductive no_text : xml -> Prop :=
| nt : forall x, (forall k, In k (kids x) -> ~ text_tag k) -> (forall k, In k (kids x) -> no_text k) -> no_text x.
Inductive text_of (x : xml) : string -> Prop :=
| txt : forall l k r, kids x = (l ++ k :: r)%list -> text_tag k ->
    (forall y, In y l \/ In y r -> ~ text_tag y /\ no_text y) -> text_of x (value k).

(** A child with a tag: none, or exactly one. *)
Definition no_kid (x : xml) (t : string) : Prop := forall k, In k (kids x) -> tag k <> t.
Inductive only_kid (x : xml) (t : string) : xml -> Prop :=
| only : forall l k r, kids x = (l ++ k :: r)%list -> tag k = t ->
    (forall y, In y l \/ In y r -> tag y <> t) -> only_kid x t k.

(** ** Items of a file *)
Inductive item :=
| IPlace (p : string) (n : N)
| ITrans (t : string) (player : Z)
| IArc (source target : string) (w : N) (inhibitor : bool).

(** Tokens of a place: an initialMarking element, or an attribute, or 0. *)
Inductive place_tokens (x : xml) : N -> Prop :=
| pt_kid : forall k s n, only_kid x "initialMarking" k -> text_of k s -> numeral s n ->
    (forall a, attr x "initialMarking" = Some a -> exists n', numeral a n' /\ (n' < 2 ^ 32)%N) -> place_tokens x n
| pt_attr : forall s n, no_kid x "initialMarking" -> attr x "initialMarking" = Some s -> numeral s n -> place_tokens x n
| pt_none : no_kid x "initialMarking" -> attr x "initialMarking" = None -> place_tokens x 0.
Inductive trans_player (x : xml) : N -> Prop :=
| tp_kid : forall k s n, only_kid x "player" k -> text_of k s -> numeral s n -> trans_player x n
| tp_attr : forall s n, no_kid x "player" -> attr x "player" = Some s -> numeral s n -> trans_player x n
| tp_none : no_kid x "player" -> attr x "player" = None -> trans_player x 0.
Inductive weight_text (x : xml) : N -> Prop :=
| aw_attr : forall s n, attr x "weight" = Some s -> numeral s n -> weight_text x n
| aw_kid : forall k s n, attr x "weight" = None -> only_kid x "inscription" k -> text_of k s -> numeral s n -> weight_text x n
| aw_none : attr x "weight" = None -> no_kid x "inscription" -> weight_text x 1.

Definition arc_tag (x : xml) : Prop := tag x = "arc" \/ tag x = "inputArc" \/ tag x = "outputArc".
Inductive item_of (x : xml) : item -> Prop :=
| io_place : forall p n, tag x = "place" -> attr x "id" = Some p -> place_tokens x n -> (n < 2 ^ 32)%N ->
    no_kid x "hlinitialMarking" -> no_kid x "type" -> item_of x (IPlace p n)
| io_trans : forall t n, tag x = "transition" -> attr x "id" = Some t -> trans_player x n -> (n < 2 ^ 31)%N ->
    no_kid x "condition" -> no_kid x "conditions" -> no_kid x "assignments" -> item_of x (ITrans t (Z.of_N n))
| io_arc : forall s t w, arc_tag x -> attr x "source" = Some s -> attr x "target" = Some t ->
    attr x "type" <> Some "timed" -> attr x "type" <> Some "inhibitor" -> weight_text x w -> (0 < w < 2 ^ 31)%N ->
    no_kid x "hlinscription" -> item_of x (IArc s t w false)
| io_inhib : forall s t w, arc_tag x /\ attr x "type" = Some "inhibitor" \/ tag x = "inhibitorArc" /\ attr x "type" <> Some "timed" ->
    attr x "source" = Some s -> attr x "target" = Some t -> weight_text x w -> (0 < w < 2 ^ 31)%N ->
    no_kid x "hlinscription" -> item_of x (IArc s t w true).

(** Elements that are no container: the items, and those that are refused. *)
Definition special (x : xml) : Prop :=
  In (tag x) ["place"; "transition"; "arc"; "inputArc"; "outputArc"; "transportArc"; "inhibitorArc"; "variable"; "queries"; "k-bound"; "query"].
(** [has x l]: the items below [x], in the order of the file, through pages and other containers. *)
Inductive has : xml -> list item -> Prop :=
| has_kids : forall x l, has_list (kids x) l -> has x l
with has_list : list xml -> list item -> Prop :=
| hl_nil : has_list [] []
| hl_item : forall k ks i l, item_of k i -> has_list ks l -> has_list (k :: ks) (i :: l)
| hl_sub : forall k ks l1 l2, ~ special k -> has k l1 -> has_list ks l2 -> has_list (k :: ks) (l1 ++ l2).
(** A file of a net without colours *)
Definition describes (x : xml) (l : list item) : Prop :=
  tag x = "pnml" /\ no_kid x "declaration" /\
  (exists n, In n (kids x) /\ tag n = "net") /\ (forall n, In n (kids x) -> tag n = "net" -> no_kid n "declaration") /\ has x l.

(** ** The net of a list of items *)
Definition is_pl (l : list item) (p : string) : Prop := exists n, In (IPlace p n) l.
Definition is_tr (l : list item) (t : string) : Prop := exists pl, In (ITrans t pl) l.
Definition ids (l : list item) : list string :=
  flat_map (fun i => match i with IPlace p _ => [p] | ITrans t _ => [t] | IArc _ _ _ _ => [] end) l.
(** Every name is given once, arcs go between places and transitions, inhibitor arcs from places to
    transitions, and no place has both kinds of arcs to a transition. *)
Definition net_ok (l : list item) : Prop :=
  NoDup (ids l) /\
  (forall s t w i, In (IArc s t w i) l -> is_pl l s /\ is_tr l t \/ is_tr l s /\ is_pl l t /\ i = false) /\
  (forall s t w1 w2, In (IArc s t w1 true) l -> In (IArc s t w2 false) l -> False).
Definition arcs_between (l : list item) (s t : string) : N :=
  sumN (map (fun i => match i with IArc a b w false => if String.eqb a s && String.eqb b t then w else 0%N | _ => 0%N end) l).
Definition item_fires (l : list item) (t : string) (M M' : string -> N) : Prop :=
  (forall p, is_pl l p -> (arcs_between l p t <= M p)%N /\ forall w, In (IArc p t w true) l -> (M p < w)%N) /\
  forall p, is_pl l p -> M' p = (M p - arcs_between l p t + arcs_between l t p)%N.
(** A numbering of the names with a property *)
Definition numbered (P : string -> Prop) (n : nat) (idx : string -> nat) : Prop :=
  (forall x, P x -> idx x < n)%nat /\ (forall x y, P x -> P y -> idx x = idx y -> x = y) /\ (forall i, (i < n)%nat -> exists x, P x /\ idx x = i).

(** ** Renumbering of the places of a net *)
Definition permutes (n : nat) (f : nat -> nat) : Prop :=
  (forall i, i < n -> f i < n)%nat /\ (forall i j, i < n -> j < n -> f i = f j -> i = j)%nat.
(** [m'] has the tokens of [m], place [p] being place [f p]. *)
Definition moved (n : nat) (f : nat -> nat) (m m' : marking) : Prop :=
  List.length m = n /\ List.length m' = n /\ forall p, (p < n)%nat -> tokens m' (f p) = tokens m p.
