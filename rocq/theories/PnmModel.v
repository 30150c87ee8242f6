(** Model of the reading of PNML files of nets without colours and of the writing of nets
    (C43).  XML trees as rapidxml gives them; builds without assertions; coordinates left out. *)
From Coq Require Import Ascii String.
From Verif Require Import Base NetSpec NetModel BuilderModel XqModel.
Set Implicit Arguments.
Local Open Scope string_scope.

(** rapidxml::xml_node: name, attributes, value and children; text is a child without a name. *)
Inductive xml := X (name : string) (attrs : list (string * string)) (value : string) (kids : list xml).
Definition tag (x : xml) : string := match x with X n _ _ _ => n end.
Definition attrs_of (x : xml) : list (string * string) := match x with X _ a _ _ => a end.
Definition value (x : xml) : string := match x with X _ _ v _ => v end.
Definition kids (x : xml) : list xml := match x with X _ _ _ k => k end.
Definition is_tag (t : string) (x : xml) : bool := String.eqb (tag x) t.

(** first_attribute *)
Definition attr (x : xml) (a : string) : option string :=
  option_map snd (find (fun p => String.eqb (fst p) a) (attrs_of x)).
(** first_attribute(..)->value(): a missing attribute is a null pointer *)
Definition need (x : xml) (a : string) : res string :=
  match attr x a with Some s => Ok s | None => UB end.

(** atoi and atoll: 0 if there is no number, undefined if it is too large *)
Definition number_at (s : string) : Z := match sscanf_d s with SNum z => z | _ => 0%Z end.
Definition atoi (s : string) : res Z := if fits_int (number_at s) then Ok (number_at s) else UB.
Definition fits_long (z : Z) : bool := ((- 9223372036854775808 <=? z) && (z <=? 9223372036854775807))%Z.
Definition atoll (s : string) : res Z := if fits_long (number_at s) then Ok (number_at s) else UB.

(** src/PetriParse/PNMLParser.cpp:868-875, parseValue: the last value or text element below *)
Fixpoint parse_value (x : xml) (text : string) : string :=
  match x with
  | X _ _ _ ks =>
    (fix go (l : list xml) (text : string) : string :=
       match l with
       | [] => text
       | k :: l' => go l' (if is_tag "value" k || is_tag "text" k then value k else parse_value k text)
       end) ks text
  end.

(** include/PetriParse/PNMLParser.h:38-61.  Arc: [None] is an uninitialised flag. *)
Record xarc := mkXA { xa_source : string; xa_target : string; xa_weight : Z; xa_inhib : option bool }.
Record xtrans := mkXT { xt_id : string; xt_player : Z }.
(** The fields of the parser that matter: the addPlace calls made so far, id2name (true: place),
    arcs and _transitions. *)
Record pst := mkP { p_places : list (string * N); p_names : list (string * bool); p_arcs : list xarc; p_trans : list xtrans }.

(** Lines 684-707: the children of a place; hlinitialMarking and type belong to coloured nets and are
    rejected here (the code reads them and ignores the result). *)
Fixpoint place_kids (l : list xml) (m : Z) : res Z :=
  match l with
  | [] => Ok m
  | k :: l' =>
    if is_tag "initialMarking" k then v <- atoll (parse_value k "") ;; place_kids l' v
    else if is_tag "hlinitialMarking" k || is_tag "type" k then Throw
    else place_kids l' m
  end.
(** Lines 677-731, parsePlace; the marking is converted to 64 unsigned bits *)
Definition parse_place (x : xml) (s : pst) : res pst :=
  id <- need x "id" ;;
  m0 <- match attr x "initialMarking" with Some t => atoll t | None => Ok 0%Z end ;;
  m <- place_kids (kids x) m0 ;;
  let m := (m mod 2 ^ 64)%Z in
  if (4294967295 <? m)%Z then Throw
  else Ok (mkP (p_places s ++ [(id, Z.to_N m)]) ((id, true) :: p_names s) (p_arcs s) (p_trans s)).

(** isdigit, isblank *)
Definition is_digit (a : ascii) : bool := let n := nat_of_ascii a in ((48 <=? n) && (n <=? 57))%nat.
Definition is_blank (a : ascii) : bool := let n := nat_of_ascii a in ((n =? 32) || (n =? 9))%nat.
Fixpoint all_chars (f : ascii -> bool) (s : string) : bool :=
  match s with EmptyString => true | String a s' => f a && all_chars f s' end.
(** Lines 754-768: the inscriptions *)
Fixpoint inscriptions (l : list xml) (first : bool) (w : Z) : res Z :=
  match l with
  | [] => Ok w
  | k :: l' =>
    if is_tag "inscription" k then
      let text := parse_value k "" in
      w <- atoi text ;;
      if negb (all_chars (fun a => is_digit a || is_blank a) text) then Throw
      else if negb first then Throw
      else inscriptions l' false w
    else inscriptions l' first w
  end.
(** Lines 733-800, parseArc.  hlinscriptions belong to coloured nets and are rejected here. *)
Definition parse_arc (x : xml) (inhibitor : bool) (s : pst) : res pst :=
  source <- need x "source" ;;
  target <- need x "target" ;;
  inhibitor <- match attr x "type" with
               | Some t => if String.eqb t "timed" then Throw
                           else Ok (inhibitor || String.eqb t "inhibitor")
               | None => Ok inhibitor
               end ;;
  weight <- match attr x "weight" with
            | Some t => atoi t
            | None => inscriptions (kids x) true 1%Z
            end ;;
  if existsb (is_tag "hlinscription") (kids x) then Throw
  else if (weight =? 0)%Z then Throw
  else Ok (mkP (p_places s) (p_names s) (p_arcs s ++ [mkXA source target weight (Some inhibitor)]) (p_trans s)).

(** Lines 808-812 *)
Fixpoint transport_weight (l : list xml) (w : Z) : res Z :=
  match l with
  | [] => Ok w
  | k :: l' => if is_tag "inscription" k then w <- atoi (parse_value k "") ;; transport_weight l' w else transport_weight l' w
  end.
(** Lines 802-825, parseTransportArc: the flag is not set *)
Definition parse_transport (x : xml) (s : pst) : res pst :=
  source <- need x "source" ;;
  transition <- need x "transition" ;;
  target <- need x "target" ;;
  w <- transport_weight (kids x) 1%Z ;;
  Ok (mkP (p_places s) (p_names s) (p_arcs s ++ [mkXA source transition w None; mkXA transition target w None]) (p_trans s)).

(** Lines 827-866, parseTransition.  Conditions (guards) belong to coloured nets and are rejected
    here. *)
Definition parse_transition (x : xml) (s : pst) : res pst :=
  id <- need x "id" ;;
  if existsb (fun k => is_tag "condition" k || is_tag "conditions" k || is_tag "assignments" k) (kids x) then Throw
  else
    player <- match find (is_tag "player") (kids x) with
              | Some k => atoi (parse_value k "")
              | None => match attr x "player" with Some t => atoi t | None => Ok 0%Z end
              end ;;
    Ok (mkP (p_places s) ((id, false) :: p_names s) (p_arcs s) (p_trans s ++ [mkXT id player])).

(** Lines 664-675, parseQueries: the queries are kept and not used *)
Definition parse_queries (x : xml) (s : pst) : res pst :=
  match kids x with [] => Ok s | _ => _ <- need x "name" ;; Ok s end.

(** Lines 633-662, parseElement *)
Fixpoint parse_element (x : xml) (s : pst) : res pst :=
  match x with
  | X _ _ _ ks =>
    (fix go (l : list xml) (s : pst) : res pst :=
       match l with
       | [] => Ok s
       | k :: l' =>
         s <- (if is_tag "place" k then parse_place k s
               else if is_tag "transition" k then parse_transition k s
               else if is_tag "arc" k || is_tag "inputArc" k || is_tag "outputArc" k then parse_arc k false s
               else if is_tag "transportArc" k then parse_transport k s
               else if is_tag "inhibitorArc" k then parse_arc k true s
               else if is_tag "variable" k then Throw
               else if is_tag "queries" k then parse_queries k s
               else if is_tag "k-bound" k then Throw
               else if is_tag "query" k then Throw
               else parse_element k s) ;;
         go l' s
       end) ks s
  end.

Section Names.
  (** Interned strings: equal numbers for equal strings. *)
  Variable nm : string -> nat.
  (** id2name[..], the last entry *)
  Definition lookup (names : list (string * bool)) (s : string) : option bool :=
    option_map snd (find (fun p => String.eqb (fst p) s) names).
  (** int to uint32_t *)
  Definition to_u32 (z : Z) : N := Z.to_N (z mod 2 ^ 32).
  (** Lines 82-125: the arcs; messages for arcs that are left out are not modelled *)
  Fixpoint add_arcs (names : list (string * bool)) (l : list xarc) (b : builder) : res builder :=
    match l with
    | [] => Ok b
    | a :: l' =>
      match lookup names (xa_source a), lookup names (xa_target a) with
      | Some true, Some false =>
        match xa_inhib a with
        | Some i => b <- add_input_arc b (nm (xa_source a)) (nm (xa_target a)) i (to_u32 (xa_weight a)) ;; add_arcs names l' b
        | None => UB
        end
      | Some false, Some true =>
        b <- add_output_arc b (nm (xa_source a)) (nm (xa_target a)) (to_u32 (xa_weight a)) ;; add_arcs names l' b
      | _, _ => add_arcs names l' b
      end
    end.
  (** Lines 58-67: a net with declarations is coloured *)
  Definition is_colored (root : xml) : res bool :=
    if existsb (is_tag "declaration") (kids root) then Ok true
    else match find (is_tag "net") (kids root) with
         | Some n => Ok (existsb (is_tag "declaration") (kids n))
         | None => UB
         end.
  (** Lines 38-136, parse; [Ok None]: the file is of a coloured net (C36).  The order of arcs in the
      builder (sort) does not matter here. *)
  Definition parse (root : xml) : res (option builder) :=
    if negb (is_tag "pnml" root) then Throw
    else
      c <- is_colored root ;;
      if c then Ok None
      else
        s <- parse_element root (mkP [] [] [] []) ;;
        let b := fold_left (fun b p => add_place b (nm (fst p)) (snd p)) (p_places s) b_empty in
        let b := fold_left (fun b t => add_transition b (nm (xt_id t)) (xt_player t)) (p_trans s) b in
        b <- add_arcs (p_names s) (p_arcs s) b ;; Ok (Some b).
  (** parse and makePetriNet *)
  Definition read_net (root : xml) (reorder : bool) : res cnet :=
    o <- parse root ;;
    match o with
    | Some b => r <- make_net b reorder ;; Ok (fst (fst r))
    | None => Throw
    end.
End Names.

(** ** The writer, src/PetriEngine/PetriNet.cpp:180-252, toXML, as the tree that is read back; the
    text between the tags is not escaped by the code.  [pn], [tn]: names. *)
Definition leaf (t : string) (s : string) : xml := X t [] s [X "" [] s []].
Definition text_in (t : string) (s : string) : xml := X t [] "" [leaf "text" s].
Definition graphics : xml := X "graphics" [] "" [X "position" [("x", "0"); ("y", "0")] "" []].
Definition place_xml (p : string) (k : N) : xml :=
  X "place" [("id", p)] "" ([graphics; text_in "name" p] ++ if (0 <? k)%N then [text_in "initialMarking" (show_N k)] else []).
Definition trans_xml (t : string) (ctrl : bool) : xml :=
  X "transition" [("id", t)] "" [X "player" [] "" [leaf "value" (if ctrl then "0" else "1")]; text_in "name" t; graphics].
Definition weight_xml (w : N) : list xml := if (1 <? w)%N then [text_in "inscription" (show_N w)] else [].
Definition pre_xml (id : N) (p t : string) (a : arc) : xml :=
  X "arc" [("id", show_N id); ("source", p); ("target", t); ("type", if arc_inhib a then "inhibitor" else "normal")] "" (weight_xml (arc_weight a)).
Definition post_xml (id : N) (t p : string) (a : arc) : xml :=
  X "arc" [("id", show_N id); ("source", t); ("target", p)] "" (weight_xml (arc_weight a)).
Fixpoint number_from (id : N) (l : list (N -> xml)) : list xml :=
  match l with [] => [] | f :: l' => f id :: number_from (id + 1) l' end.
Definition to_xml (net : cnet) (pn tn : nat -> string) : xml :=
  X "pnml" [("xmlns", "http://www.pnml.org/version-2009/grammar/pnml")] ""
   [X "net" [("id", "ClientsAndServers-PT-N0500P0"); ("type", "http://www.pnml.org/version-2009/grammar/ptnet")] ""
    [X "page" [("id", "page0")] ""
     (text_in "name" "DefaultPage" ::
      map (fun i => place_xml (pn i) (nth i (cn_init net) 0%N)) (seq 0 (cn_places net)) ++
      map (fun t => trans_xml (tn t) (nth t (cn_ctrl net) false)) (seq 0 (cn_ntrans net)) ++
      number_from 0 (flat_map (fun t =>
        map (fun a id => pre_xml id (pn (arc_place a)) (tn t) a) (tr_pre (net_trans net t)) ++
        map (fun a id => post_xml id (tn t) (pn (arc_place a)) a) (tr_post (net_trans net t))) (seq 0 (cn_ntrans net))))%list]].
