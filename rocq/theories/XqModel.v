(** Model of the reading and writing of query files and of the step from CTL* to CTL (C38).
    Builds without assertions: after assert(false) the functions return a null pointer,
    [Ok None] here. *)
From Verif Require Import Base PqlSyntax XqSyntax.
Set Implicit Arguments.
Local Open Scope string_scope.

(** std::vector filled by a loop that stops at the first null pointer *)
Section Loop.
  Variables A B : Type.
  Variable f : A -> res (option B).
  Fixpoint mapO (l : list A) : res (option (list B)) :=
    match l with
    | [] => Ok (Some [])
    | a :: l' => x <- f a ;;
                 match x with
                 | None => Ok None
                 | Some b => r <- mapO l' ;; Ok (option_map (fun bs => b :: bs) r)
                 end
    end.
End Loop.
Section LoopM.
  Variables A B : Type.
  Variable f : A -> res B.
  Fixpoint mapR (l : list A) : res (list B) :=
    match l with
    | [] => Ok []
    | a :: l' => b <- f a ;; r <- mapR l' ;; Ok (b :: r)
    end.
End LoopM.

(** * Reading text *)

(** isspace in the "C" locale. *)
Definition is_space (a : ascii) : bool :=
  let n := nat_of_ascii a in ((n =? 32) || ((9 <=? n) && (n <=? 13)))%nat.
(** QueryXMLParser.cpp:557-563, parsePlace (for an element that is a place): the text without
    white space. *)
Fixpoint strip (s : string) : string :=
  match s with
  | EmptyString => EmptyString
  | String a s' => if is_space a then strip s' else String a (strip s')
  end.

(** sscanf(s, "%d", &i): end of input, no number (the variable stays uninitialised) or a
    number, possibly too large for an int (undefined). *)
Inductive scan := SEof | SNone | SNum (z : Z).
Fixpoint skip_space (s : string) : string :=
  match s with
  | String a s' => if is_space a then skip_space s' else s
  | EmptyString => EmptyString
  end.
Fixpoint scan_digits (acc : option Z) (s : string) : option Z :=
  match s with
  | EmptyString => acc
  | String a s' =>
    let n := nat_of_ascii a in
    if ((48 <=? n) && (n <=? 57))%nat
    then scan_digits (Some (match acc with Some v => v * 10 | None => 0 end + Z.of_nat (n - 48)%nat)%Z) s'
    else acc
  end.
Definition sscanf_d (s : string) : scan :=
  match skip_space s with
  | EmptyString => SEof
  | String a s' =>
    let neg := Ascii.eqb a "-" in
    match scan_digits None (if (neg || Ascii.eqb a "+")%bool then s' else String a s') with
    | None => SNone
    | Some v => SNum (if neg then - v else v)%Z
    end
  end.
Definition fits_int (z : Z) : bool := ((- 2147483648 <=? z) && (z <=? 2147483647))%Z.

(** * Building formulas *)

(** src/PetriEngine/PQL/Expressions.cpp:254-273 and Expressions.h: placeFree of the classes.
    An IdentifierExpr that is not compiled is not free of places. *)
Fixpoint place_free (e : nexpr) : bool :=
  match e with
  | NLit _ => true
  | NId _ => false
  | NMinus e => place_free e
  | NSub es => forallb place_free es
  | NPlus _ ids es | NMul _ ids es => match ids with [] => forallb place_free es | _ => false end
  | NPath _ e => place_free e
  end.
(** int64_t arithmetic: overflow is undefined. *)
Definition i64 (z : Z) : res Z :=
  if ((- 2 ^ 63 <=? z) && (z <? 2 ^ 63))%Z then Ok z else UB.
Section Fold.
  Variable f : nexpr -> res Z.
  Variable op : Z -> Z -> Z.
  Fixpoint foldE (l : list nexpr) (acc : Z) : res Z :=
    match l with
    | [] => Ok acc
    | e :: l' => v <- f e ;; r <- i64 (op acc v) ;; foldE l' r
    end.
End Fold.
(** src/PetriEngine/PQL/Evaluation.cpp:40-121, evaluation without a marking. *)
Fixpoint eval0 (e : nexpr) : res Z :=
  match e with
  | NLit z => Ok z
  | NId _ => UB
  | NMinus e => v <- eval0 e ;; i64 (- v)
  | NSub es => match es with
               | [] => UB
               | e :: es' => v <- eval0 e ;; foldE eval0 Z.sub es' v
               end
  | NPlus c ids es => match ids with [] => foldE eval0 Z.add es c | _ => UB end
  | NMul c ids es => match ids with [] => foldE eval0 Z.mul es c | _ => UB end
  | NPath _ e => eval0 e
  end.

(** Expressions.cpp:619-670, CommutativeExpr::handle and init, for sums ([mul] false) and
    products.  An identifier is not compiled here, so the lists of places stay empty and
    their sorting has no effect. *)
Definition app_op (mul : bool) (a b : Z) : res Z := i64 (if mul then a * b else a + b)%Z.
Definition comm := (Z * list string * list nexpr)%type.
Definition handle (mul : bool) (s : comm) (e : nexpr) : res comm :=
  let '(c, ids, es) := s in
  if place_free e then v <- eval0 e ;; c' <- app_op mul c v ;; Ok (c', ids, es)
  else match e with
       | NPlus c2 ids2 es2 =>
         match ids2, es2 with
         | [], [] => c' <- app_op mul c c2 ;; Ok (c', ids, es)
         | _, _ => if mul then Ok (c, ids, es ++ [e])%list
                   else c' <- app_op mul c c2 ;; Ok (c', ids ++ ids2, es ++ es2)%list
         end
       | NMul c2 ids2 es2 =>
         match ids2, es2 with
         | [], [] => c' <- app_op mul c c2 ;; Ok (c', ids, es)
         | _, _ => if mul then c' <- app_op mul c c2 ;; Ok (c', ids ++ ids2, es ++ es2)%list
                   else Ok (c, ids, es ++ [e])%list
         end
       | _ => Ok (c, ids, es ++ [e])%list
       end.
Fixpoint handle_all (mul : bool) (s : comm) (l : list nexpr) : res comm :=
  match l with
  | [] => Ok s
  | e :: l' => s' <- handle mul s e ;; handle_all mul s' l'
  end.
Definition mk_plus (l : list nexpr) : res nexpr :=
  s <- handle_all false (0%Z, [], []) l ;; let '(c, ids, es) := s in Ok (NPlus c ids es).
Definition mk_mul (l : list nexpr) : res nexpr :=
  s <- handle_all true (1%Z, [], []) l ;; let '(c, ids, es) := s in Ok (NMul c ids es).

(** Expressions.cpp:46-55, tryMerge without compaction: operands of the same kind are
    merged into the list. *)
Fixpoint flat (isor : bool) (c : ncond) : list ncond :=
  match c with
  | NAnd l => if isor then [c] else flat_map (flat isor) l
  | NOr l => if isor then flat_map (flat isor) l else [c]
  | _ => [c]
  end.
(** src/PetriEngine/PQL/PredicateCheckers.cpp:50-72, isTemporal. *)
Fixpoint temporal (c : ncond) : bool :=
  match c with
  | NNot c | NSel _ c => temporal c
  | NAnd l | NOr l => existsb temporal l
  | N1 _ _ | N2 _ _ _ | NEx _ _ | NAll _ _ => true
  | _ => false
  end.
(** Expressions.cpp:474-511, postMerge and the constructors of AndCondition and OrCondition;
    the model of std::sort keeps the order inside the two classes. *)
Definition post_merge (l : list ncond) : list ncond :=
  (filter (fun c => negb (temporal c)) l ++ filter temporal l)%list.
Definition mk_and (l : list ncond) : ncond := NAnd (post_merge (flat_map (flat false) l)).
Definition mk_or (l : list ncond) : ncond := NOr (post_merge (flat_map (flat true) l)).

(** * The reader, src/PetriParse/QueryXMLParser.cpp *)

(** strcmp(element->name(), "place") == 0 *)
Definition is_place (x : xml) : bool := match tag_of x with Tplace => true | _ => false end.
Definition is_transition (x : xml) : bool := match tag_of x with Ttransition => true | _ => false end.
(** lines 168-182 and 464-479: one place of a list of places *)
Definition read_place (x : xml) : res (option string) :=
  if is_place x then (let p := strip (text_of x) in if String.eqb p "" then Ok None else Ok (Some p)) else Ok None.

(** Lines 452-555, parseIntegerExpression.  A null pointer among the operands of a difference
    is dereferenced when the query is used: UB at once here. *)
Fixpoint parse_exp (x : xml) : res (option nexpr) :=
  match x with
  | X t a s ks =>
    match t with
    | Tconstant =>
      match sscanf_d s with
      | SEof => Ok None
      | SNone => UB
      | SNum z => if fits_int z then Ok (Some (NLit z)) else UB
      end
    | Ttokens =>
      ps <- mapO read_place ks ;;
      match ps with
      | None | Some [] => Ok None
      | Some [p] => Ok (Some (NId p))
      | Some ps => e <- mk_plus (map NId ps) ;; Ok (Some e)
      end
    | Tsum =>
      els <- mapO parse_exp ks ;;
      match els with
      | None => Ok None
      | Some [] => Throw
      | Some [e] => Ok (Some e)
      | Some es => e <- mk_plus es ;; Ok (Some e)
      end
    | Tproduct =>
      els <- mapO parse_exp ks ;;
      match els with
      | None => Ok None
      | Some [] => Throw
      | Some [e] => Ok (Some e)
      | Some es => e <- mk_mul es ;; Ok (Some e)
      end
    | Tdifference =>
      els <- mapO parse_exp ks ;;
      match els with
      | None => UB
      | Some [e] => Ok (Some (NSub [NLit 0; e]))
      | Some es => Ok (Some (NSub es))
      end
    | Tscope =>
      match ks with
      | [k] => match a with
               | None => Throw
               | Some n => e <- parse_exp k ;; Ok (option_map (NPath n) e)
               end
      | _ => Throw
      end
    | _ => Ok None
    end
  end.

(** "if ((cond = ...) != nullptr) return ...", otherwise fatal_error at the end *)
Definition wrap (f : ncond -> ncond) (r : res (option ncond)) : res (option ncond) :=
  x <- r ;; match x with Some c => Ok (Some (f c)) | None => Throw end.
(** the operator for a comparison, lines 412-417; true: the operands are swapped *)
Definition cmp_of (t : tag) : option (cmp * bool) :=
  match t with
  | Teq => Some (OpEq, false) | Tne => Some (OpNe, false)
  | Tlt => Some (OpLt, false) | Tle => Some (OpLe, false)
  | Tgt => Some (OpLt, true) | Tge => Some (OpLe, true)
  | _ => None
  end.
Definition read_transition (x : xml) : res (option ncond) :=
  if is_transition x then Ok (Some (NFire (text_of x))) else Ok None.
(** two formulas, null if one of them is *)
Definition both (f : ncond -> ncond -> ncond) (r1 r2 : res (option ncond)) : res (option ncond) :=
  x <- r1 ;; y <- r2 ;;
  match x, y with Some c, Some d => Ok (Some (f c d)) | _, _ => Ok None end.

(** Lines 206-450, parseBooleanFormula.  An element without children where the code takes the
    first one is a null pointer: UB. *)
Fixpoint parse_form (x : xml) : res (option ncond) :=
  match x with
  | X t a s ks =>
    match t with
    | Tinvariant => match ks with [] => UB | k :: _ => wrap (fun c => NNot (N1 OEF (NNot c))) (parse_form k) end
    | Timpossibility => match ks with [] => UB | k :: _ => wrap (fun c => NNot (N1 OEF c)) (parse_form k) end
    | Tpossibility => match ks with [] => UB | k :: _ => wrap (N1 OEF) (parse_form k) end
    | Tcontrol => match ks with [k] => wrap (N1 OControl) (parse_form k) | _ => Ok None end
    | Texists => match ks with
                 | [k] => wrap (match a with Some n => NEx n | None => N1 OE end) (parse_form k)
                 | _ => Ok None
                 end
    | Tnext => match ks with [k] => wrap (N1 OX) (parse_form k) | _ => Ok None end
    | Tglobally => match ks with [k] => wrap (N1 OG) (parse_form k) | _ => Ok None end
    | Tfinally => match ks with [k] => wrap (N1 OF) (parse_form k) | _ => Ok None end
    | Tuntil =>
      match ks with
      | [X Tbefore _ _ [b]; X Treach _ _ [c]] =>
        x1 <- parse_form b ;;
        match x1 with
        | None => Throw
        | Some f => wrap (N2 OU f) (parse_form c)
        end
      | _ => Ok None
      end
    | Tall => match ks with
              | [k] => wrap (match a with Some n => NAll n | None => N1 OA end) (parse_form k)
              | _ => Ok None
              end
    | Tdeadlock => Ok (Some NDead)
    | Ttrue => Ok (Some (NBool true))
    | Tfalse => Ok (Some (NBool false))
    | Tnegation | Tnot => match ks with [k] => wrap NNot (parse_form k) | _ => Ok None end
    | Tconjunction | Tand =>
      cs <- mapO parse_form ks ;;
      match cs with
      | None => Ok None
      | Some [] => Throw
      | Some [c] => Ok (Some c)
      | Some cs => Ok (Some (mk_and cs))
      end
    | Tdisjunction | Tor =>
      cs <- mapO parse_form ks ;;
      match cs with
      | None => Ok None
      | Some [] => Throw
      | Some [c] => Ok (Some c)
      | Some cs => Ok (Some (mk_or cs))
      end
    | Txor => match ks with
              | [k1; k2] => both (fun c d => mk_or [mk_and [c; NNot d]; mk_and [NNot c; d]])
                                 (parse_form k1) (parse_form k2)
              | _ => Ok None
              end
    | Timplication => match ks with
                      | [k1; k2] => both (fun c d => mk_or [NNot c; d]) (parse_form k1) (parse_form k2)
                      | _ => Ok None
                      end
    | Tequivalence => match ks with
                      | [k1; k2] => both (fun c d => mk_or [mk_and [c; d]; mk_and [NNot c; NNot d]])
                                         (parse_form k1) (parse_form k2)
                      | _ => Ok None
                      end
    | Teq | Tne | Tlt | Tle | Tgt | Tge =>
      match ks with
      | [k1; k2] =>
        x1 <- parse_exp k1 ;; x2 <- parse_exp k2 ;;
        match x1, x2, cmp_of t with
        | Some e1, Some e2, Some (o, swapped) => Ok (Some (if swapped then NCmp o e2 e1 else NCmp o e1 e2))
        | _, _, _ => Ok None
        end
      | _ => Ok None
      end
    | Tfireable =>
      match ks with
      | [] => Ok None
      | _ => cs <- mapO read_transition ks ;; Ok (option_map mk_or cs)
      end
    | Tscope =>
      match ks with
      | [k] => match a with
               | None => Throw
               | Some n => wrap (NSel n) (parse_form k)
               end
      | _ => Throw
      end
    | _ => Throw
    end
  end.

(** Lines 137-203, parseFormula. *)
Definition parse_formula (x : xml) : res (option ncond) :=
  match kids_of x with
  | [X t a s ks as child] =>
    match t with
    | Tksafe =>
      match ks with
      | [] => Throw
      | k :: ks' => e <- parse_exp k ;;
                    match e, ks' with
                    | Some e, [] => Ok (Some (NSafe e))
                    | _, _ => Throw
                    end
      end
    | Tquasi => Ok (Some NQuasi)
    | Tstable => Ok (Some NStable)
    | Tliveness => Ok (Some NLive)
    | Tbound => ps <- mapO read_place ks ;; Ok (option_map (fun ps => N1 OEF (NBounds ps)) ps)
    | _ => parse_form child
    end
  | _ => Ok None
  end.

(** A query of a file: name, formula (if not null) and whether it is supported. *)
Record item := mkItem { i_id : string; i_query : option ncond; i_supported : bool }.

(** Lines 123-131, parseTags. *)
Definition tags_ok (x : xml) : bool :=
  forallb (fun k => negb (match tag_of k with Tisreach => String.eqb (text_of k) "true" | _ => false end)) (kids_of x).
(** Lines 86-121, parseProperty; [Ok None] is false.  Without a formula element parseFormula
    gets a null pointer: UB. *)
Definition prop_loop (ks : list xml) : string * option xml * bool :=
  fold_left (fun s k =>
    let '(id, f, ok) := s in
    match tag_of k with
    | Tid => (text_of k, f, ok)
    | Tformula => (id, Some k, ok)
    | Ttags => (id, f, tags_ok k)
    | _ => s
    end) ks ("", None, true).
Definition parse_property (x : xml) : res (option item) :=
  match tag_of x with
  | Tproperty =>
    let '(id, f, ok) := prop_loop (kids_of x) in
    if String.eqb id "" then Ok None
    else if ok then
      match f with
      | None => UB
      | Some f => q <- parse_formula f ;; Ok (Some (mkItem id q true))
      end
    else Ok (Some (mkItem id None false))
  | _ => Ok None
  end.
(** Lines 43-84, parse and parsePropertySet.  [only] lists the numbers of the wanted
    queries, none meaning all. *)
Definition wanted (only : list nat) (i : nat) : bool :=
  match only with [] => true | _ => existsb (Nat.eqb i) only end.
Fixpoint parse_items (only : list nat) (i : nat) (ks : list xml) : res (option (list item)) :=
  match ks with
  | [] => Ok (Some [])
  | k :: ks' =>
    it <- (if wanted only i then parse_property k else Ok (Some (mkItem "" None true))) ;;
    match it with
    | None => Ok None
    | Some it => r <- parse_items only (S i) ks' ;; Ok (option_map (fun l => it :: l) r)
    end
  end.
Definition parse_set (only : list nat) (x : xml) : res (option (list item)) :=
  match tag_of x with
  | Tset => parse_items only 0 (kids_of x)
  | _ => Ok None
  end.

(** src/VerifyPN.cpp:205-255, parseXMLQueries: the formulas and their names. *)
Fixpoint collect (only : list nat) (i : nat) (l : list item) : list ncond * list string :=
  match l with
  | [] => ([], [])
  | it :: l' =>
    let '(cs, ns) := collect only (S i) l' in
    if negb (wanted only i) then (cs, ns)
    else if negb (i_supported it) then (cs, ns)
    else (match i_query it with Some c => c :: cs | None => cs end, i_id it :: ns)
  end.
Definition read_queries (only : list nat) (x : xml) : res (list ncond * list string) :=
  l <- parse_set only x ;;
  match l with
  | None => Ok ([], [])
  | Some l => Ok (collect only 0 l)
  end.

(** * The writer, src/PetriEngine/PQL/XMLPrinter.cpp *)

(** std::ostream << int64_t *)
Definition digit (d : N) : ascii := ascii_of_nat (48 + N.to_nat d)%nat.
Fixpoint dec (fuel : nat) (n : N) (tail : string) : string :=
  match fuel with
  | O => tail
  | S f => let tail' := String (digit (n mod 10)) tail in
           if (n / 10 =? 0)%N then tail' else dec f (n / 10) tail'
  end.
Definition show_N (n : N) : string := dec (S (N.size_nat n)) n "".
Definition show_Z (z : Z) : string :=
  if (z <? 0)%Z then String "-" (show_N (Z.to_N (- z))) else show_N (Z.to_N z).

(** Tags and text as the reader sees them (the text between tags becomes a data node). *)
Definition leaf (t : tag) (s : string) : xml :=
  X t None s (if String.eqb s "" then [] else [X Tdata None s []]).
Definition elem (t : tag) (ks : list xml) : xml := X t None "" ks.
Definition elem_named (t : tag) (n : string) (ks : list xml) : xml := X t (Some n) "" ks.
Definition place_node (p : string) : xml := leaf Tplace p.
Definition const_node (z : Z) : xml := leaf Tconstant (show_Z z).

(** Lines 307-396. *)
Fixpoint print_exp (e : nexpr) : list xml :=
  match e with
  | NId p => [elem Ttokens [place_node p]]
  | NLit z => [const_node z]
  | NPlus c ids es =>
    let body := ((if (c =? 0)%Z then [] else [const_node c]) ++
                 match ids with [] => [] | _ => [elem Ttokens (map place_node ids)] end ++
                 flat_map print_exp es)%list in
    let n := ((if (c =? 0)%Z then 0 else 1) + match ids with [] => 0 | _ => 1 end + List.length es)%nat in
    if (2 <=? n)%nat then [elem Tsum body] else body
  | NMul c ids es =>
    let body := ((if (c =? 1)%Z then [] else [const_node c]) ++
                 map (fun p => elem Ttokens [place_node p]) ids ++
                 flat_map print_exp es)%list in
    let n := ((if (c =? 1)%Z then 0 else 1) + List.length es + List.length ids)%nat in
    if (2 <=? n)%nat then [elem Tproduct body] else body
  | NMinus e => [elem Tdifference (leaf Tconstant "0" :: print_exp e)]
  | NSub es => [elem Tdifference (flat_map print_exp es)]
  | NPath n e => [elem_named Tscope n (print_exp e)]
  end.
(** Lines 117-160, one constraint. *)
Definition print_cons (c : string * N * N) : list xml :=
  let '(p, lo, hi) := c in
  ((if (lo =? 0)%N then [] else [elem Tge [elem Ttokens [place_node p]; leaf Tconstant (show_N lo)]]) ++
   (if (hi =? u32max)%N then [] else [elem Tle [elem Ttokens [place_node p]; leaf Tconstant (show_N hi)]]))%list.
Definition true_node (b : bool) : xml := elem (if b then Ttrue else Tfalse) [].
(** Lines 51-305 and 398-400.  Conditions that are compiled to others are written after
    compilation, where they do not occur: UB. *)
Fixpoint print_cond (c : ncond) : res (list xml) :=
  match c with
  | NNot c => r <- print_cond c ;; Ok [elem Tnegation r]
  | NAnd l =>
    r <- mapR print_cond l ;;
    match l with
    | [] => Ok [true_node true]
    | [_] => Ok (List.concat r)
    | _ => Ok [elem Tconjunction (List.concat r)]
    end
  | NOr l =>
    r <- mapR print_cond l ;;
    match l with
    | [] => Ok [true_node false]
    | [_] => Ok (List.concat r)
    | _ => Ok [elem Tdisjunction (List.concat r)]
    end
  | NCmp o a b =>
    Ok [elem (match o with OpLt => Tlt | OpLe => Tle | OpEq => Teq | OpNe => Tne end) (print_exp a ++ print_exp b)%list]
  | NDead => Ok [elem Tdeadlock []]
  | NConj neg cs =>
    let inner := match cs with
                 | [] => [true_node true]
                 | [(_, lo, hi)] =>
                   if ((lo =? 0) || (hi =? u32max))%N then flat_map print_cons cs
                   else [elem Tconjunction (flat_map print_cons cs)]
                 | _ => [elem Tconjunction (flat_map print_cons cs)]
                 end in
    Ok (if neg then [elem Tnegation inner] else inner)
  | NBounds ps => Ok [elem Tbound (map place_node ps)]
  | NBool b => Ok [true_node b]
  | NFire t => Ok [elem Tfireable [leaf Ttransition t]]
  | N1 o c =>
    r <- print_cond c ;;
    Ok [match o with
        | OControl => elem Tcontrol r
        | OEF => elem Texists [elem Tfinally r]
        | OEG => elem Texists [elem Tglobally r]
        | OEX => elem Texists [elem Tnext r]
        | OAG => elem Tall [elem Tglobally r]
        | OAF => elem Tall [elem Tfinally r]
        | OAX => elem Tall [elem Tnext r]
        | OA => elem Tall r
        | OE => elem Texists r
        | OG => elem Tglobally r
        | OF => elem Tfinally r
        | OX => elem Tnext r
        end]
  | N2 o a b =>
    r1 <- print_cond a ;; r2 <- print_cond b ;;
    let u := elem Tuntil [elem Tbefore r1; elem Treach r2] in
    Ok [match o with OU => u | OEU => elem Texists [u] | OAU => elem Tall [u] end]
  | NEx n c => r <- print_cond c ;; Ok [elem_named Texists n r]
  | NAll n c => r <- print_cond c ;; Ok [elem_named Tall n r]
  | NSel n c => r <- print_cond c ;; Ok [elem_named Tscope n r]
  | NSafe _ | NQuasi | NStable | NLive => UB
  end.
(** Lines 21-30, print. *)
Definition print_property (c : ncond) (name : string) : res xml :=
  r <- print_cond c ;;
  Ok (elem Tproperty [leaf Tid name; leaf Tother "Simplified"; elem Tformula r]).
(** VerifyPN.cpp:308-356, writeQueries (not binary).  [solved] says which queries have an
    answer already. *)
Fixpoint write_loop (qs : list ncond) (names : list string) (solved : list bool) (keep : bool) (order : list nat)
  : res (list xml) :=
  match order with
  | [] => Ok []
  | i :: order' =>
    s <- rd solved i ;;
    if (s && negb keep)%bool then write_loop qs names solved keep order'
    else q <- rd qs i ;; n <- rd names i ;; x <- print_property q n ;;
         r <- write_loop qs names solved keep order' ;; Ok (x :: r)
  end.
Definition write_queries (qs : list ncond) (names : list string) (solved : list bool) (keep : bool) (order : list nat)
  : res xml :=
  r <- write_loop qs names solved keep order ;; Ok (elem Tset r).

(** * CTL* to CTL, src/PetriEngine/PQL/CTLVisitor.cpp *)

(** IsCTLVisitor, lines 22-250: the state is (isCTL, _cur_type == PATH). *)
Section IsCtl.
  Variable f : ncond -> bool * bool -> bool * bool.
  Fixpoint ctl_ops (l : list ncond) (s : bool * bool) : bool * bool :=
    match l with
    | [] => s
    | c :: l' => let s' := f c s in if snd s' then (false, snd s') else ctl_ops l' s'
    end.
End IsCtl.
Definition need (path : bool) (s : bool * bool) : bool * bool :=
  (if Bool.eqb (snd s) path then fst s else false, snd s).
Fixpoint is_ctl_visit (c : ncond) (s : bool * bool) : bool * bool :=
  match c with
  | NNot c => need false (is_ctl_visit c s)
  | NAnd l | NOr l => ctl_ops is_ctl_visit l s
  | NBool _ | NDead | NFire _ | NCmp _ _ _ | NConj _ _ | NBounds _
  | NSafe _ | NQuasi | NStable | NLive => (fst s, false)
  | N1 o c =>
    match o with
    | OControl => is_ctl_visit c s
    | OEF | OEG | OEX | OAF | OAG | OAX => need false (is_ctl_visit c s)
    | OE | OA => (fst (need true (is_ctl_visit c s)), false)
    | OF | OG | OX => (fst (need false (is_ctl_visit c s)), true)
    end
  | N2 o a b =>
    match o with
    | OEU | OAU => need false (is_ctl_visit a s)
    | OU => (fst (need false (is_ctl_visit b (need false (is_ctl_visit a s)))), true)
    end
  | NEx _ _ | NAll _ _ | NSel _ _ => (false, snd s)
  end.
(** VerifyPN.cpp:361-366: a fresh visitor.  CTLVisitor.h:102 does not initialise _cur_type:
    [junk]. *)
Definition is_ctl (junk : bool) (c : ncond) : bool := fst (is_ctl_visit c (true, junk)).

(** AsCTL, lines 252-485.  A null result is used by the caller: UB. *)
Fixpoint as_ctl (c : ncond) : res ncond :=
  match c with
  | NNot c => c' <- as_ctl c ;; Ok (NNot c')
  | NAnd l => l' <- mapR as_ctl l ;; Ok (mk_and l')
  | NOr l => l' <- mapR as_ctl l ;; Ok (mk_or l')
  | NBool _ | NDead | NFire _ | NCmp _ _ _ | NConj _ _ | NBounds _
  | NSafe _ | NQuasi | NStable | NLive => Ok c
  | N1 o d =>
    match o with
    | OControl | OEF | OEG | OEX | OAF | OAG | OAX => d' <- as_ctl d ;; Ok (N1 o d')
    | OA =>
      match d with
      | N1 OG x | N1 OEG x | N1 OAG x => x' <- as_ctl x ;; Ok (N1 OAG x')
      | N1 OX x | N1 OEX x | N1 OAX x => x' <- as_ctl x ;; Ok (N1 OAX x')
      | N1 OF x | N1 OEF x | N1 OAF x => x' <- as_ctl x ;; Ok (N1 OAF x')
      | N2 _ x y => x' <- as_ctl x ;; y' <- as_ctl y ;; Ok (N2 OAU x' y')
      | _ => UB
      end
    | OE =>
      match d with
      | N1 OG x | N1 OEG x | N1 OAG x => x' <- as_ctl x ;; Ok (N1 OEG x')
      | N1 OX x | N1 OEX x | N1 OAX x => x' <- as_ctl x ;; Ok (N1 OEX x')
      | N1 OF x | N1 OEF x | N1 OAF x => x' <- as_ctl x ;; Ok (N1 OEF x')
      | N2 _ x y => x' <- as_ctl x ;; y' <- as_ctl y ;; Ok (N2 OEU x' y')
      | _ => UB
      end
    | OX | OF | OG => UB
    end
  | N2 o a b =>
    match o with
    | OEU | OAU => a' <- as_ctl a ;; b' <- as_ctl b ;; Ok (N2 o a' b')
    | OU => UB
    end
  | NEx _ _ | NAll _ _ | NSel _ _ => UB
  end.
