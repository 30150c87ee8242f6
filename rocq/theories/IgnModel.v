(** Model of the net without colours that the explicit engine for coloured nets builds
    before it searches (src/PetriEngine/ExplicitColored/ColorIgnorantPetriNetBuilder.cpp).
    The result is the sequence of calls made to the builder of nets without colours
    (BuilderModel).  A place keeps its number as its name. *)
From Verif Require Import Base NetModel BuilderModel ColSyntax ColSpec ColModel ExpModel.
Set Implicit Arguments.

(** ArcCompiler.cpp:73-75, 170-172, 315-317, 425-427 containsNegative. *)
Fixpoint has_negative (e : carc) : bool :=
  match e with
  | KAdd l r => has_negative l || has_negative r
  | KSub _ _ => true
  | KConst _ => false
  | KColl _ _ _ => false
  end.

(** ColorIgnorantPetriNetBuilder.cpp:83-89 ArcRange. *)
Record arange := mkAR { ar_input : bool; ar_place : nat; ar_lower : N; ar_upper : N; ar_cur : N }.

(** 127-134, the arcs of the current variant: the part of the loop body that adds arcs.
    Adding the arcs and moving to the next variant are interleaved in the code, element by
    element; an element is only changed after its arc was added, so they are separated. *)
Definition variant_arcs (name : nat) (l : list arange) : list call :=
  flat_map (fun r => if (0 <? ar_cur r)%N
                     then if ar_input r then [CIn (ar_place r) name false (ar_cur r)] else [COut name (ar_place r) (ar_cur r)]
                     else []) l.

(** 135-143, the part that moves to the next variant: [true] is the carry. *)
Fixpoint next_variant (l : list arange) : list arange * bool :=
  match l with
  | [] => ([], true)
  | r :: l' =>
    if (ar_upper r <=? ar_cur r)%N then
      let '(l'', carry) := next_variant l' in
      (mkAR (ar_input r) (ar_place r) (ar_lower r) (ar_upper r) (ar_lower r) :: l'', carry)
    else (mkAR (ar_input r) (ar_place r) (ar_lower r) (ar_upper r) (ar_cur r + 1) :: l', false)
  end.

Section Ignorant.
Variable n : cpn.

(** The name of a transition, and its name with "___" and a number appended. *)
Variable tname : nat -> option nat -> nat.

(** 117-145, the loop over the variants; [count] is transitionCount.  The result is the
    calls and the number of variants. *)
Fixpoint variants (fuel : nat) (t count : nat) (l : list arange) : res (list call * nat) :=
  match fuel with
  | 0 => NoFuel
  | S fuel' =>
    let name := tname t (if Nat.eqb count 0 then None else Some (S count)) in
    let cs := CTrans name 0 :: variant_arcs name l in
    let '(l', carry) := next_variant l in
    if carry then Ok (cs, S count)
    else r <- variants fuel' t (S count) l' ;; Ok (cs ++ fst r, snd r)
  end.

(** 40-62, addInputArc and addOutputArc compile the expressions of the arcs. *)
Fixpoint compile_arcs (l : list (nat * aexp)) : res (list (nat * carc)) :=
  match l with
  | [] => Ok []
  | (p, a) :: l' => e <- compile (cn_types n) (cn_vars n) a ;; r <- compile_arcs l' ;; Ok ((p, e) :: r)
  end.
Fixpoint compile_trans (l : list ctrans) : res (list (list (nat * carc) * list (nat * carc))) :=
  match l with
  | [] => Ok []
  | tr :: l' =>
    i <- compile_arcs (ct_in tr) ;; o <- compile_arcs (ct_out tr) ;; r <- compile_trans l' ;; Ok ((i, o) :: r)
  end.

(** 95-115, the ranges of the arcs. *)
Definition range_of (input : bool) (x : nat * carc) : arange :=
  mkAR input (fst x) (min_count (snd x)) (upper_count (snd x)) (min_count (snd x)).
Definition ranges (st : list (nat * carc) * list (nat * carc)) : list arange :=
  map (range_of true) (fst st) ++ map (range_of false) (snd st).

(** 93-147, nets with a subtraction; [transitionVariationCount] is the list of counts.
    Simplification: transitions in the order of their numbers, not of their names. *)
Fixpoint all_variants (fuel t : nat) (l : list (list (nat * carc) * list (nat * carc))) : res (list call * list nat) :=
  match l with
  | [] => Ok ([], [])
  | st :: l' =>
    x <- variants fuel t 0 (ranges st) ;;
    r <- all_variants fuel (S t) l' ;;
    Ok (fst x ++ fst r, snd x :: snd r)
  end.

(** 148-158, nets without subtraction. *)
Definition plain_trans (t : nat) (st : list (nat * carc) * list (nat * carc)) : list call :=
  CTrans (tname t None) 0 ::
  map (fun x => CIn (fst x) (tname t None) false (min_count (snd x))) (fst st) ++
  map (fun x => COut (tname t None) (fst x) (min_count (snd x))) (snd st).
Fixpoint all_plain (t : nat) (l : list (list (nat * carc) * list (nat * carc))) : list call :=
  match l with
  | [] => []
  | st :: l' => plain_trans t st ++ all_plain (S t) l'
  end.

(** 25-32 addPlace: the tokens of all colours, in 32 bits. *)
Fixpoint place_calls (p : nat) (l : list cplace) : res (list call) :=
  match l with
  | [] => Ok []
  | pl :: l' =>
    m <- marking n pl ;;
    r <- place_calls (S p) l' ;;
    Ok (CPlace p (fold_left (fun s x => ((s + snd x) mod 4294967296)%N) (snd m) 0%N) :: r)
  end.

(** 34-39 addTransition. *)
Fixpoint trans_calls (t : nat) (l : list ctrans) : list call :=
  match l with
  | [] => []
  | tr :: l' => CTrans (tname t None) (ct_player tr) :: trans_calls (S t) l'
  end.

(** 48-50, 58-60 _foundNegative. *)
Definition any_negative (l : list (list (nat * carc) * list (nat * carc))) : bool :=
  existsb (fun st => existsb (fun x => has_negative (snd x)) (fst st ++ snd st)) l.

(** 42-45, 159-168, the inhibitor arcs.  [counts] is empty for nets without subtraction. *)
Definition inhib_calls (counts : list nat) : list call :=
  flat_map (fun x : nat * nat * N => let '(p, t, w) := x in
              match nth_error counts t with
              | None => [CIn p (tname t None) true w]
              | Some k => map (fun i => CIn p (tname t (Some i)) true w) (seq 0 k)
              end) (cn_inh n).

(** All the calls: those made while the net is read (ExplicitColoredModelChecker.cpp:83-85,
    parse_model: places, transitions, arcs), and those of build. *)
Definition ignorant_calls (fuel : nat) : res (list call) :=
  ps <- place_calls 0 (cn_pls n) ;;
  ts <- compile_trans (cn_trs n) ;;
  r <- (if any_negative ts then all_variants fuel 0 ts else Ok (all_plain 0 ts, [])) ;;
  Ok (ps ++ trans_calls 0 (cn_trs n) ++ fst r ++ inhib_calls (snd r)).

(** ExplicitColoredModelChecker.cpp:83-90: the net without colours. *)
Definition ignorant_net (fuel : nat) : res cnet :=
  cs <- ignorant_calls fuel ;;
  b <- do_calls b_empty cs ;;
  r <- make_net b false ;;
  Ok (fst (fst r)).

(** contextAnalysis with the names of the builder (ExplicitColoredModelChecker.cpp:117,
    192, 208): the number of the place [p], and of the transition with the name of [t]. *)
Definition numbers (fuel : nat) : res ((nat -> option nat) * (nat -> option nat)) :=
  cs <- ignorant_calls fuel ;;
  b <- do_calls b_empty cs ;;
  r <- make_net b false ;;
  Ok (fun p => match index_of p (b_pnames b) with Some i => nth i (snd (fst r)) None | None => None end,
      fun t => match index_of (tname t None) (b_tnames b) with Some i => nth i (snd r) None | None => None end).

End Ignorant.
