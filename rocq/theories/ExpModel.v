(** Model of the explicit engine for coloured nets (C37): include/ and
    src/PetriEngine/ExplicitColored.  Paths below are relative to those directories. *)
From Verif Require Import Base ColSyntax ColModel ExpSyntax.
Set Implicit Arguments.

(** ** SequenceMultiSet.h *)

(** MarkingCount_t is unsigned, sMarkingCount_t a signed 32-bit number (AtomicTypes.h:8-17). *)
Definition i32max : Z := 2147483647.
(** A sum that the code does not check: signed overflow is undefined. *)
Definition i32 (z : Z) : res Z :=
  if (-2147483648 <=? z)%Z && (z <=? i32max)%Z then Ok z else UB.

(** 302-303: the vector of (colour, count), ordered by colour, and _cardinality.
    Simplification: colours and colour counts are natural numbers (uint32_t in the code, so
    a type has fewer than 2^32 colours). *)
Record ms := mkMs { ms_counts : list (nat * Z); ms_card : Z }.
Definition ms0 : ms := mkMs [] 0.

(** 17-24 getCount; lower_bound (282-300) finds the colour in an ordered vector. *)
Fixpoint get_in (l : list (nat * Z)) (c : nat) : Z :=
  match l with
  | [] => 0%Z
  | (d, k) :: l' => if Nat.eqb d c then k else get_in l' c
  end.
Definition ms_get (m : ms) (c : nat) : Z := get_in (ms_counts m) c.

(** The element found by lower_bound is changed, or a new one is inserted before it. *)
Fixpoint put_in (l : list (nat * Z)) (c : nat) (f : Z -> Z) : list (nat * Z) :=
  match l with
  | [] => [(c, f 0%Z)]
  | (d, k) :: l' =>
    if d <? c then (d, k) :: put_in l' c f
    else if Nat.eqb d c then (d, f k) :: l'
    else (c, f 0%Z) :: l
  end.

(** 30-45 setCount.  The test [_cardinality + count < count] is in unsigned arithmetic and
    fails for a cardinality that is not negative. *)
Definition set_count (m : ms) (c : nat) (k : Z) : res ms :=
  if (i32max <? k)%Z then Throw
  else card <- i32 (ms_card m + k) ;;
       Ok (mkMs (put_in (ms_counts m) c (fun _ => k)) (card - ms_get m c)).

(** 51-62 addCount. *)
Definition add_count (m : ms) (c : nat) (k : Z) : res ms :=
  if (0 <? k)%Z && (i32max - k <? ms_card m)%Z then Throw
  else Ok (mkMs (put_in (ms_counts m) c (fun x => (x + k)%Z)) (ms_card m + k)).

(** 90-93: the remaining elements are appended. *)
Fixpoint push_all (b : list (nat * Z)) (card : Z) : res Z :=
  match b with
  | [] => Ok card
  | (_, y) :: b' => card' <- i32 (card + y) ;; push_all b' card'
  end.

(** 68-95 operator+=.  Only the branch for equal colours checks for overflow. *)
Fixpoint plus_loop (a : list (nat * Z)) : list (nat * Z) -> Z -> res (list (nat * Z) * Z) :=
  match a with
  | [] => fun b card => card' <- push_all b card ;; Ok (b, card')
  | (c, x) :: a' =>
    fix inner (b : list (nat * Z)) (card : Z) : res (list (nat * Z) * Z) :=
      match b with
      | [] => Ok ((c, x) :: a', card)
      | (d, y) :: b' =>
        if Nat.eqb c d then
          if (0 <? y)%Z && (i32max - y <? card)%Z then Throw
          else r <- plus_loop a' b' (card + y)%Z ;; Ok ((c, (x + y)%Z) :: fst r, snd r)
        else if c <? d then
          r <- plus_loop a' ((d, y) :: b') card ;; Ok ((c, x) :: fst r, snd r)
        else
          card' <- i32 (card + y) ;;
          r <- inner b' card' ;; Ok ((d, y) :: fst r, snd r)
      end
  end.
Definition ms_plus (a b : ms) : res ms :=
  r <- plus_loop (ms_counts a) (ms_counts b) (ms_card a) ;; Ok (mkMs (fst r) (snd r)).

(** 97-123 operator-=: nothing is done for a vector without elements. *)
Fixpoint minus_loop (a : list (nat * Z)) : list (nat * Z) -> list (nat * Z) :=
  match a with
  | [] => fun b => map (fun x => (fst x, (- snd x)%Z)) b
  | (c, x) :: a' =>
    fix inner (b : list (nat * Z)) : list (nat * Z) :=
      match b with
      | [] => (c, x) :: a'
      | (d, y) :: b' =>
        if Nat.eqb c d then (c, (x - y)%Z) :: minus_loop a' b'
        else if c <? d then (c, x) :: minus_loop a' ((d, y) :: b')
        else (d, (- y)%Z) :: inner b'
      end
  end.
Definition sumZ (l : list Z) : Z := fold_right Z.add 0%Z l.
Definition ms_minus (a b : ms) : ms :=
  match ms_counts a with
  | [] => a
  | _ => mkMs (minus_loop (ms_counts a) (ms_counts b)) (ms_card a - sumZ (map snd (ms_counts b)))
  end.

(** 256-263 fixNegative. *)
Definition fix_neg (m : ms) : ms :=
  mkMs (map (fun x => (fst x, Z.max 0 (snd x))) (ms_counts m))
       (ms_card m + sumZ (map (fun x => Z.max 0 (- snd x)) (ms_counts m))).

(** 199-235 operator<=. *)
Fixpoint le_loop (a : list (nat * Z)) : list (nat * Z) -> bool :=
  match a with
  | [] => fun _ => true
  | (c, x) :: a' =>
    fix inner (b : list (nat * Z)) : bool :=
      match b with
      | [] => forallb (fun y => Z.eqb (snd y) 0) ((c, x) :: a')
      | (d, y) :: b' =>
        if (x <=? 0)%Z then le_loop a' ((d, y) :: b')
        else if (y <=? 0)%Z then inner b'
        else if Nat.eqb c d then (if (y <? x)%Z then false else le_loop a' b')
        else if c <? d then false
        else inner b'
      end
  end.
Definition ms_leb (a b : ms) : bool :=
  if (ms_card b <? ms_card a)%Z then false else le_loop (ms_counts a) (ms_counts b).

(** 241-254 shrink. *)
Definition ms_shrink (m : ms) : ms := mkMs (filter (fun x => (0 <? snd x)%Z) (ms_counts m)) (ms_card m).

(** 265-271 getHighestCount. *)
Definition highest (m : ms) : N := Z.to_N (fold_left (fun x y => Z.max x (snd y)) (ms_counts m) 0%Z).

(** ** Numbers of colours *)

(** ColorSequence.h:64-70 getTotalSize; ExplicitColorType. *)
Definition total_size (sizes : list nat) : nat := fold_left (fun t s => t * s) sizes 1.

(** ColorSequence.h:23-36: the number of a sequence of colours. *)
Fixpoint seq_loop (sizes l : list nat) (interval : nat) : nat :=
  match sizes, l with
  | s :: sizes', i :: l' => interval / s * i + seq_loop sizes' l' (interval / s)
  | _, _ => 0
  end.
Definition seq_num (sizes l : list nat) : nat := seq_loop sizes l (total_size sizes).

(** SuccessorGenerator/IntegerPackCodec.h:10-22, 28-30: the value at [index]. *)
Fixpoint decode_loop (sizes : list nat) (encoded index interval : nat) : nat :=
  match sizes with
  | [] => 0
  | s :: sizes' =>
    match index with
    | O => (encoded / (interval / s)) mod s
    | S i => decode_loop sizes' encoded i (interval / s)
    end
  end.
Definition decode (sizes : list nat) (encoded index : nat) : nat :=
  decode_loop sizes encoded index (total_size sizes).

(** utils/MathExt.h:4-24 addColorOffset. *)
Definition color_offset (base : nat) (off : Z) (max : nat) : nat :=
  Z.to_nat ((Z.of_nat base + off) mod Z.of_nat max).

(** ** Compiled arc expressions (ArcCompiler.cpp) *)

(** ExpressionCompilers/ArcCompiler.h:16-61 ParameterizedColor: a variable or a colour, with
    an offset.  Simplification: no AllExpression; the PNML parser replaces it by the
    colours (PNMLParser.cpp:331-340). *)
Inductive pcol := PV (v : nat) (off : Z) | PC (c : nat) (off : Z).

(** The classes of ArcCompiler.cpp:8-457.  Simplification: an ArcExpressionVariableCollection
    has one sequence of colours (more arise only from AllExpression) and there is no
    ArcExpressionScale, which the compiler never makes. *)
Inductive carc :=
| KAdd (l r : carc)
| KSub (l r : carc)
| KConst (m : ms)
| KColl (sizes : list nat) (s : list pcol) (count : N).

(** Binding.h:10-32.  Simplification: the value of a variable that is not bound is 0
    (UINT32_MAX in the code); the variables of a transition are always bound. *)
Definition binding := list (nat * nat).
Fixpoint bget (b : binding) (v : nat) : nat :=
  match b with
  | [] => 0
  | (u, i) :: b' => if Nat.eqb u v then i else bget b' v
  end.

(** ArcCompiler.cpp:434-449 getColorSequence. *)
Definition pcol_val (b : binding) (x : pcol) (size : nat) : nat :=
  match x with
  | PV v off => color_offset (bget b v) off size
  | PC c off => color_offset c off size
  end.
Definition pseq_num (b : binding) (sizes : list nat) (s : list pcol) : nat :=
  seq_num sizes (map (fun xs => pcol_val b (fst xs) (snd xs)) (combine s sizes)).

(** 402-407 getSignedCount. *)
Definition signed_count (k : N) : res Z := if (Z.of_N k <=? i32max)%Z then Ok (Z.of_N k) else Throw.

(** The methods eval, produce and consume: [out] is not used by [Eval]. *)
Inductive arc_op := Eval | Produce | Consume.

Section Arcs.
Variable b : binding.

(** 22-37 addition, 116-131 subtraction, 273-284 constant, 355-372 collection. *)
Fixpoint ev (op : arc_op) (e : carc) (out : ms) : res ms :=
  match e with
  | KAdd l r =>
    match op with
    | Eval => x <- ev Eval l ms0 ;; y <- ev Eval r ms0 ;; ms_plus x y
    | Produce => o <- ev Produce l out ;; ev Produce r o
    | Consume => o <- ev Consume l out ;; o' <- ev Consume r o ;; Ok (fix_neg o')
    end
  | KSub l r =>
    x <- ev Eval l ms0 ;;
    y <- ev Consume r x ;;
    match op with
    | Eval => Ok y
    | Produce => ms_plus out y
    | Consume => Ok (fix_neg (ms_minus out y))
    end
  | KConst m =>
    match op with
    | Eval => Ok m
    | Produce => ms_plus out m
    | Consume => Ok (fix_neg (ms_minus out m))
    end
  | KColl sizes s k =>
    z <- signed_count k ;;
    match op with
    | Eval => add_count ms0 (pseq_num b sizes s) z
    | Produce => add_count out (pseq_num b sizes s) z
    | Consume => o <- add_count out (pseq_num b sizes s) (- z) ;; Ok (fix_neg o)
    end
  end.

(** ArcCompiler.h:75-78 isSubSet. *)
Definition is_subset (e : carc) (super : ms) : res bool :=
  m <- ev Eval e ms0 ;; Ok (ms_leb m super).

End Arcs.

(** getMinimalMarkingCount and getUpperBoundMarkingCount: 11, 77-79, 94-100, 174-176, 268,
    319-321, 333, 429-431. *)
Fixpoint upper_count (e : carc) : N :=
  match e with
  | KAdd l r => (upper_count l + upper_count r)%N
  | KSub l _ => upper_count l
  | KConst m => Z.to_N (ms_card m)
  | KColl _ _ k => k
  end.
Fixpoint min_count (e : carc) : N :=
  match e with
  | KAdd l r => (min_count l + min_count r)%N
  | KSub l r => if (min_count l <? upper_count r)%N then 0%N else (min_count l - upper_count r)%N
  | KConst m => Z.to_N (ms_card m)
  | KColl _ _ k => k
  end.

Definition is_var (x : pcol) : bool := match x with PV _ _ => true | PC _ _ => false end.

(** ColoredMinimalMarking (ArcCompiler.h:63-67) of a collection: 333-352. *)
Definition coll_marking (sizes : list nat) (s : list pcol) (k : N) : res (ms * N) :=
  if existsb is_var s then Ok (ms0, k)
  else m <- add_count ms0 (pseq_num [] sizes s) (Z.of_N k) ;; Ok (m, 0%N).

(** 107-111: the variables are taken from every colour. *)
Definition drop_vars (m : ms) (vc : N) : ms :=
  mkMs (map (fun x => (fst x, (snd x - Z.of_N vc)%Z)) (ms_counts m))
       (ms_card m - Z.of_N vc * Z.of_nat (length (ms_counts m))).

(** getMinimalColorMarking (15-18, 103-113, 269-270, 334-352) and getMaximalColorMarking
    (47-52, 141-145, 294-296, 382-384). *)
Fixpoint min_marking (e : carc) : res (ms * N) :=
  match e with
  | KAdd l r =>
    x <- min_marking l ;; y <- min_marking r ;;
    m <- ms_plus (fst x) (fst y) ;; Ok (m, (snd x + snd y)%N)
  | KSub l r =>
    x <- min_marking l ;; y <- max_marking r ;;
    let m := ms_minus (fst x) (fst y) in
    Ok (if N.eqb (snd y) 0 then m else fix_neg (drop_vars m (snd y)), snd x)
  | KConst m => Ok (m, 0%N)
  | KColl sizes s k => coll_marking sizes s k
  end
with max_marking (e : carc) : res (ms * N) :=
  match e with
  | KAdd l r =>
    x <- max_marking l ;; y <- max_marking r ;;
    m <- ms_plus (fst x) (fst y) ;; Ok (m, (snd x + snd y)%N)
  | KSub l r =>
    x <- min_marking l ;; y <- max_marking r ;;
    Ok (ms_minus (fst x) (fst y), snd x)
  | KConst m => Ok (m, 0%N)
  | KColl sizes s k => coll_marking sizes s k
  end.

(** getVariables: 12-14, 101-103, 339-342. *)
Fixpoint arc_vars (e : carc) : list nat :=
  match e with
  | KAdd l r | KSub l r => arc_vars l ++ arc_vars r
  | KConst _ => []
  | KColl _ s _ => flat_map (fun x => match x with PV v _ => [v] | PC _ _ => [] end) s
  end.

(** SuccessorGenerator/VariableConstraint.h:8-23; [None] is Top. *)
Definition vcon := option (nat * Z * nat).

(** calculateVariableConstraints: 66-71, 159-167, 310-312, 409-423. *)
Fixpoint seq_cons (s : list pcol) (index var place : nat) : list vcon :=
  match s with
  | [] => []
  | PV v off :: s' =>
    if Nat.eqb v var then Some (index, off, place) :: seq_cons s' (S index) var place
    else seq_cons s' (S index) var place
  | PC _ _ :: s' => seq_cons s' (S index) var place
  end.
Fixpoint var_cons (e : carc) (var place : nat) : list vcon :=
  match e with
  | KAdd l r => var_cons r var place ++ var_cons l var place
  | KSub l r => if existsb (Nat.eqb var) (arc_vars r ++ arc_vars l) then [None] else []
  | KConst _ => []
  | KColl _ s _ => seq_cons s 0 var place
  end.

(** ** The compilers *)

Section Compile.
Variable tab : list tdecl.
Variable vars : list nat.

(** ArcExpressionColorVisitor, 459-534: the colour and the size of its type. *)
Definition pshift (d : Z) (x : pcol) : pcol :=
  match x with PV v off => PV v (off + d) | PC c off => PC c (off + d) end.
Fixpoint color_visit (e : cexp) : res (pcol * nat) :=
  match e with
  | EDot => Ok (PC 0 0, 1)
  | EVar v => ty <- rd vars v ;; Ok (PV v 0, csize tab ty)
  | EUser ty i => Ok (PC i 0, csize tab ty)
  | ESucc e' => r <- color_visit e' ;; Ok (pshift 1 (fst r), snd r)
  | EPred e' => r <- color_visit e' ;; Ok (pshift (-1) (fst r), snd r)
  | ETup _ => Throw
  end.
Fixpoint color_visits (es : list cexp) : res (list (pcol * nat)) :=
  match es with
  | [] => Ok []
  | e :: es' => x <- color_visit e ;; l <- color_visits es' ;; Ok (x :: l)
  end.

(** ArcExpressionCompilerVisitor, 547-576 tuples and 619-657 single colours. *)
Definition compile_color (e : cexp) (scale : N) : res carc :=
  match e with
  | ETup es => l <- color_visits es ;; Ok (KColl (map snd l) (map fst l) scale)
  | _ => x <- color_visit e ;; Ok (KColl [snd x] [fst x] scale)
  end.

(** 578-617.  Simplification: _scale does not wrap around.  A NumberOfExpression or an
    AddExpression without elements is not produced by the parser (UB here). *)
Fixpoint compile_arc (a : aexp) (scale : N) : res carc :=
  match a with
  | ANum es k =>
    match es with
    | [] => UB
    | [e] => compile_color e (scale * k)
    | _ => Throw
    end
  | AAdd es =>
    match es with
    | [] => UB
    | e :: es' =>
      top <- compile_arc e scale ;;
      (fix go (es : list aexp) (top : carc) : res carc :=
         match es with
         | [] => Ok top
         | e' :: es'' => x <- compile_arc e' scale ;; go es'' (KAdd top x)
         end) es' top
    end
  | ASub l r => x <- compile_arc l scale ;; y <- compile_arc r scale ;; Ok (KSub x y)
  | AScal e k => compile_arc e (scale * k)
  end.

(** 692-749 replaceConstants.  The range-for over [waiting] takes its end before the first
    iteration, so that only the root is looked at (the elements pushed for an addition or a
    subtraction invalidate its iterators, which is undefined behaviour; the model takes
    what happens with pointers as iterators: the loop ends).  The size that belongs to the
    colour at every position is the one at index [i], the index of the sequence, which is
    0 (711). *)
Definition const_val (size0 : nat) (x : pcol) : nat :=
  match x with PC c off => color_offset c off size0 | PV _ _ => 0 end.
Definition replace_constants (e : carc) : res carc :=
  match e with
  | KColl sizes s k =>
    if existsb is_var s then Ok e
    else z <- signed_count k ;;
         m <- add_count ms0 (seq_num sizes (map (const_val (hd 0 sizes)) s)) z ;;
         if (0 <? ms_card m)%Z then Ok (KConst m) else Throw
  | _ => Ok e
  end.

(** 680-690 compile.  preCalculate (751-799) has nothing to do: no addition or subtraction
    has two constants as operands, because replaceConstants only changes the root. *)
Definition compile (a : aexp) : res carc := e <- compile_arc a 1%N ;; replace_constants e.

(** ExpressionCompilers/GuardCompiler.cpp:12-33, 197-261 VarOrColorVisitor. *)
Inductive gval_ := GV (v : nat) (off : Z) (max : nat) | GC (c : nat).
Fixpoint guard_color (e : cexp) : res (pcol * nat) :=
  match e with
  | EVar v => ty <- rd vars v ;; Ok (PV v 0, csize tab ty)
  | EUser ty i => Ok (PC i 0, csize tab ty)
  | ESucc e' => r <- guard_color e' ;; Ok (pshift 1 (fst r), snd r)
  | EPred e' => r <- guard_color e' ;; Ok (pshift (-1) (fst r), snd r)
  | EDot | ETup _ => Throw
  end.
Definition guard_value (e : cexp) : res gval_ :=
  r <- guard_color e ;;
  Ok (match fst r with PV v off => GV v off (snd r) | PC c off => GC (color_offset c off (snd r)) end).

(** 35-195 the compiled guards. *)
Inductive kguard :=
| QLt (l r : gval_)
| QLe (l r : gval_)
| QEq (l r : list gval_)
| QNe (l r : list gval_)
| QAnd (l r : kguard)
| QOr (l r : kguard).

(** 366-384 ParseSequence. *)
Fixpoint guard_values (es : list cexp) : res (list gval_) :=
  match es with
  | [] => Ok []
  | e :: es' => x <- guard_value e ;; l <- guard_values es' ;; Ok (x :: l)
  end.
Definition parse_sequence (e : cexp) : res (list gval_) :=
  match e with
  | ETup es => guard_values es
  | _ => x <- guard_value e ;; Ok [x]
  end.

(** 263-323 ColorExpressionCompilerVisitor. *)
Fixpoint compile_guard (g : gexp) : res kguard :=
  match g with
  | GLt l r => x <- guard_value l ;; y <- guard_value r ;; Ok (QLt x y)
  | GLe l r => x <- guard_value l ;; y <- guard_value r ;; Ok (QLe x y)
  | GEq l r =>
    x <- parse_sequence l ;; y <- parse_sequence r ;;
    if Nat.eqb (length x) (length y) then Ok (QEq x y) else Throw
  | GNe l r =>
    x <- parse_sequence l ;; y <- parse_sequence r ;;
    if Nat.eqb (length x) (length y) then Ok (QNe x y) else Throw
  | GAnd l r => x <- compile_guard l ;; y <- compile_guard r ;; Ok (QAnd x y)
  | GOr l r => x <- compile_guard l ;; y <- compile_guard r ;; Ok (QOr x y)
  end.

End Compile.

(** GuardCompiler.cpp:19-33 getLhs, getRhs. *)
Definition gval_of (b : binding) (x : gval_) : nat :=
  match x with GV v off max => color_offset (bget b v) off max | GC c => c end.
(** 131-143 the loop over the pairs. *)
Fixpoint pairs_eq (b : binding) (l r : list gval_) : bool :=
  match l, r with
  | x :: l', y :: r' => if Nat.eqb (gval_of b x) (gval_of b y) then pairs_eq b l' r' else false
  | _, _ => true
  end.
(** The methods eval. *)
Fixpoint guard_eval (b : binding) (g : kguard) : bool :=
  match g with
  | QLt l r => gval_of b l <? gval_of b r
  | QLe l r => gval_of b l <=? gval_of b r
  | QEq l r => pairs_eq b l r
  | QNe l r => negb (pairs_eq b l r)
  | QAnd l r => if guard_eval b l then guard_eval b r else false
  | QOr l r => if guard_eval b l then true else guard_eval b r
  end.
(** The methods collectVariables. *)
Definition gval_vars (x : gval_) : list nat := match x with GV v _ _ => [v] | GC _ => [] end.
Fixpoint kguard_vars (g : kguard) : list nat :=
  match g with
  | QLt l r | QLe l r => gval_vars l ++ gval_vars r
  | QEq l r | QNe l r => flat_map gval_vars l ++ flat_map gval_vars r
  | QAnd l r | QOr l r => kguard_vars l ++ kguard_vars r
  end.

(** ** The net (ColoredPetriNet.h) and its builder (ExplicitColoredPetriNetBuilder.cpp) *)

(** An arc with its compiled expression and what the constructors precompute. *)
Record karc := mkKA { ka_place : nat; ka_expr : carc; ka_min : ms }.

(** ColoredPetriNet.h:13-18 and the slices of _arcs and _inhibitorArcs that belong to the
    transition.  Simplification: the index vectors built in 244-286 are replaced by the
    slices themselves. *)
Record ktrans := mkKT {
  kt_guard : option kguard;
  kt_in : list karc;
  kt_out : list karc;
  kt_inh : list (nat * N);
  kt_vars : list nat;
  kt_total : nat;
  kt_cons : list (nat * list vcon) }.

(** kn_places: basicColorSizes of each place; kn_vars: colorSize of each variable. *)
Record knet := mkKN {
  kn_places : list (list nat);
  kn_vars : list nat;
  kn_trans : list ktrans;
  kn_init : list ms }.

(** std::set<Variable_t>: ordered, without duplicates. *)
Fixpoint set_ins (v : nat) (l : list nat) : list nat :=
  match l with
  | [] => [v]
  | u :: l' => if v <? u then v :: l else if Nat.eqb v u then l else u :: set_ins v l'
  end.
Definition set_of (l : list nat) : list nat := fold_left (fun s v => set_ins v s) l [].

Section Build.
Variable n : cpn.
Notation tab := (cn_types n).
Notation vars := (cn_vars n).

(** 135-150 addColorType: basicColorSizes. *)
Definition basic_sizes (ty : nat) : list nat :=
  match nth_error tab ty with
  | Some (TProd cs) => map (ksize tab) cs
  | _ => [csize tab ty]
  end.

(** 98-117 addPlace: the tokens of the initial marking, evaluated by the parser. *)
Fixpoint add_tokens (ty : nat) (mty : option nat) (l : list (nat * N)) (m : ms) : res ms :=
  match l with
  | [] => Ok m
  | (i, k) :: l' =>
    c <- mcolor tab mty i ;;
    let s := if is_tuple tab c then map snd (tuple_colors tab c) else [snd c] in
    m' <- set_count m (seq_num (basic_sizes ty) s) (Z.of_N k) ;;
    add_tokens ty mty l' m'
  end.
Definition init_place (pl : cplace) : res ms :=
  t <- marking n pl ;; add_tokens (cp_type pl) (fst t) (snd t) ms0.
Fixpoint init_places (l : list cplace) : res (list ms) :=
  match l with
  | [] => Ok []
  | pl :: l' => m <- init_place pl ;; r <- init_places l' ;; Ok (m :: r)
  end.

(** 332-369: the arcs are compiled; the constructors compute the minimal markings. *)
Fixpoint build_arcs (l : list (nat * aexp)) : res (list karc) :=
  match l with
  | [] => Ok []
  | (p, a) :: l' =>
    e <- compile tab vars a ;;
    m <- min_marking e ;;
    r <- build_arcs l' ;;
    Ok (mkKA p e (fst m) :: r)
  end.

(** 288-312 _calculateTransitionVariables: totalBindings, 0 without variables;
    TOO_MANY_BINDINGS is an outcome without an answer (Throw here). *)
Fixpoint mul_sizes (vs : list nat) (t : nat) : res nat :=
  match vs with
  | [] => Ok t
  | v :: vs' =>
    ty <- rd vars v ;;
    let s := csize tab ty in
    if (18446744073709551615 / N.of_nat s <? N.of_nat t)%N then Throw
    else mul_sizes vs' (t * s)
  end.
Definition total_bindings (vs : list nat) : res nat :=
  match vs with [] => Ok 0 | _ => mul_sizes vs 1 end.

(** 314-330 _calculatePrePlaceConstraints: the entry of a variable. *)
Definition cons_of (arcs : list karc) (v : nat) : list vcon :=
  fold_left (fun acc a =>
    if existsb (Nat.eqb v) (arc_vars (ka_expr a)) then var_cons (ka_expr a) v (ka_place a) ++ acc else acc)
    arcs [].
Definition arcs_vars (arcs : list karc) : list nat := flat_map (fun a => arc_vars (ka_expr a)) arcs.

Definition build_trans (t : nat) (tr : ctrans) : res ktrans :=
  g <- match ct_guard tr with
       | None => Ok None
       | Some g => k <- compile_guard tab vars g ;; Ok (Some k)
       end ;;
  ins <- build_arcs (ct_in tr) ;;
  outs <- build_arcs (ct_out tr) ;;
  let vs := set_of (match g with Some k => kguard_vars k | None => [] end ++ arcs_vars ins ++ arcs_vars outs) in
  total <- total_bindings vs ;;
  let inh := map (fun x => (fst (fst x), snd x)) (filter (fun x => Nat.eqb (snd (fst x)) t) (cn_inh n)) in
  let cons := map (fun v => (v, cons_of ins v)) (set_of (arcs_vars ins)) in
  Ok (mkKT g ins outs inh vs total cons).

Fixpoint build_transitions (t : nat) (l : list ctrans) : res (list ktrans) :=
  match l with
  | [] => Ok []
  | tr :: l' => k <- build_trans t tr ;; r <- build_transitions (S t) l' ;; Ok (k :: r)
  end.

(** 215-229 build, 371-378 _addVariables. *)
Definition build : res knet :=
  init <- init_places (cn_pls n) ;;
  ts <- build_transitions 0 (cn_trs n) ;;
  Ok (mkKN (map (fun pl => basic_sizes (cp_type pl)) (cn_pls n))
           (map (fun ty => csize tab ty) vars) ts init).

End Build.

(** ** ColoredSuccessorGenerator *)

Definition kmark := list ms.

Section Generator.
Variable net : knet.

(** ColoredSuccessorGenerator.cpp:57-65 checkInhibitor; totalCount() is unsigned. *)
Fixpoint check_inhibitor (M : kmark) (l : list (nat * N)) : res bool :=
  match l with
  | [] => Ok true
  | (p, w) :: l' =>
    m <- rd M p ;;
    if (Z.of_N w <=? ms_card m)%Z then Ok false else check_inhibitor M l'
  end.

(** 157-168 _hasMinimalCardinality. *)
Fixpoint has_minimal (M : kmark) (l : list karc) : res bool :=
  match l with
  | [] => Ok true
  | a :: l' =>
    m <- rd M (ka_place a) ;;
    if (ms_card m <? Z.of_N (min_count (ka_expr a)))%Z then Ok false
    else if negb (ms_leb (ka_min a) m) then Ok false
    else has_minimal M l'
  end.

(** 44-55 checkPresetAndGuard. *)
Fixpoint check_preset (M : kmark) (b : binding) (l : list karc) : res bool :=
  match l with
  | [] => Ok true
  | a :: l' =>
    m <- rd M (ka_place a) ;;
    ok <- is_subset b (ka_expr a) m ;;
    if ok then check_preset M b l' else Ok false
  end.
Definition check_preset_guard (M : kmark) (t : ktrans) (b : binding) : res bool :=
  if match kt_guard t with Some g => guard_eval b g | None => true end
  then check_preset M b (kt_in t) else Ok false.

(** 67-84 fire. *)
Fixpoint move_tokens (op : arc_op) (b : binding) (M : kmark) (l : list karc) : res kmark :=
  match l with
  | [] => Ok M
  | a :: l' =>
    m <- rd M (ka_place a) ;;
    m' <- ev b op (ka_expr a) m ;;
    move_tokens op b (upd M (ka_place a) m') l'
  end.
Definition kfire (M : kmark) (t : ktrans) (b : binding) : res kmark :=
  M1 <- move_tokens Consume b M (kt_in t) ;; move_tokens Produce b M1 (kt_out t).

(** 25-38 getBinding. *)
Fixpoint binding_loop (vs : list nat) (bid interval : nat) : res binding :=
  match vs with
  | [] => Ok []
  | v :: vs' =>
    s <- rd (kn_vars net) v ;;
    let i := interval / s in
    r <- binding_loop vs' bid i ;;
    Ok ((v, (bid / i) mod s) :: r)
  end.
Definition get_binding (t : ktrans) (bid : nat) : res binding :=
  if Nat.eqb (kt_total t) 0 then Ok [] else binding_loop (kt_vars t) bid (kt_total t).

(** 116-123: the values of the variable for the tokens of the place, as a std::set. *)
Definition possible_colors (sizes : list nat) (m : ms) (index : nat) (off : Z) (size : nat) : list nat :=
  set_of (map (fun x => color_offset (decode sizes (fst x) index) (- off) size) (ms_counts m)).

(** 104-140: the loop over the constraints.  [None] for all colours; the outer [None]
    when no binding is possible. *)
Fixpoint restrict (M : kmark) (size : nat) (l : list vcon) (values : option (list nat)) :
    res (option (option (list nat))) :=
  match l with
  | [] => Ok (Some values)
  | None :: l' => restrict M size l' values
  | Some (index, off, p) :: l' =>
    m <- rd M p ;;
    sizes <- rd (kn_places net) p ;;
    let colors := possible_colors sizes m index off size in
    let values' := match values with
                   | None => if Nat.eqb (length colors) size then None else Some colors
                   | Some vs => Some (filter (fun v => existsb (Nat.eqb v) colors) vs)
                   end in
    match values' with
    | Some [] => Ok None
    | _ => restrict M size l' values'
    end
  end.

Fixpoint find_cons (l : list (nat * list vcon)) (v : nat) : option (list vcon) :=
  match l with
  | [] => None
  | (u, c) :: l' => if Nat.eqb u v then Some c else find_cons l' v
  end.

(** 86-155 _calculateConstraintData: for each variable the number of values and the values.
    Simplification: the data kept in _constraintData between calls is computed again, from
    the same marking (ColoredSuccessorGenerator.h:125-127: the key of a state and a transition
    is unique for fewer than 65536 transitions and 2^48 states). *)
Fixpoint constraint_data (M : kmark) (t : ktrans) (vs : list nat) :
    res (option (list (nat * nat * option (list nat)))) :=
  match vs with
  | [] => Ok (Some [])
  | v :: vs' =>
    size <- rd (kn_vars net) v ;;
    r <- match find_cons (kt_cons t) v with
         | None => Ok (Some None)
         | Some l => restrict M size l None
         end ;;
    match r with
    | None => Ok None
    | Some values =>
      rest <- constraint_data M t vs' ;;
      Ok (match rest with
          | None => None
          | Some d => Some ((v, match values with None => size | Some l => length l end, values) :: d)
          end)
    end
  end.

(** 205-218: the binding with number [bid]. *)
Fixpoint data_binding (sizes : list nat) (d : list (nat * nat * option (list nat))) (bid index : nat) : res binding :=
  match d with
  | [] => Ok []
  | (v, _, values) :: d' =>
    let k := decode sizes bid index in
    c <- match values with None => Ok k | Some l => rd l k end ;;
    r <- data_binding sizes d' bid (S index) ;;
    Ok ((v, c) :: r)
  end.

(** 193-199 and 204-224: the loops over the bindings, from [bid] up to the limit. *)
Fixpoint scan (M : kmark) (t : ktrans) (get : nat -> res binding) (fuel bid : nat) : res (option (nat * binding)) :=
  match fuel with
  | O => Ok None
  | S f =>
    b <- get bid ;;
    ok <- check_preset_guard M t b ;;
    if ok then Ok (Some (bid, b)) else scan M t get f (S bid)
  end.

(** 170-226 findNextValidBinding, with the binding it leaves in its argument; [None] is
    the largest number. *)
Definition find_next (M : kmark) (t : ktrans) (bid : nat) : res (option (nat * binding)) :=
  early <- (if Nat.eqb bid 0
            then i <- check_inhibitor M (kt_inh t) ;;
                 if i then h <- has_minimal M (kt_in t) ;; Ok (negb h) else Ok true
            else Ok false) ;;
  if early then Ok None
  else if Nat.eqb (kt_total t) 0 then
    if Nat.eqb bid 0 then
      ok <- check_preset_guard M t [] ;; Ok (if ok then Some (0, []) else None)
    else Ok None
  else if 30 <? kt_total t then
    d <- constraint_data M t (kt_vars t) ;;
    match d with
    | None => Ok None
    | Some d =>
      let sizes := map (fun x => snd (fst x)) d in
      scan M t (fun i => data_binding sizes d i 0) (total_size sizes - bid) bid
    end
  else scan M t (get_binding t) (kt_total t - bid) bid.

(** What one call of next() leads to in the search: the state is done, it is looked at
    again later, or there is a successor (with the transition and the binding number of
    the TraceMapStep). *)
Inductive gout (C : Type) :=
| GDone
| GSkip (c : C)
| GSucc (c : C) (M : kmark) (t bid : nat).
Arguments GDone {C}.
Arguments GSkip {C} c.
Arguments GSucc {C} c M t bid.

(** ColoredSuccessorGenerator.h:73-96 _nextFixed, with the state's (_currentTransition,
    _currentBinding). *)
Fixpoint next_fixed (fuel : nat) (M : kmark) (tid bid : nat) : res (gout (nat * nat)) :=
  match fuel with
  | O => NoFuel
  | S f =>
    match nth_error (kn_trans net) tid with
    | None => Ok GDone
    | Some t =>
      r <- find_next M t bid ;;
      match r with
      | Some (k, b) => M' <- kfire M t b ;; Ok (GSucc (tid, S k) M' tid k)
      | None => next_fixed f M (S tid) 0
      end
    end
  end.
Definition fixed_gen (M : kmark) (c : nat * nat) : res (gout (nat * nat)) :=
  next_fixed (S (length (kn_trans net))) M (fst c) (snd c).

(** ColoredPetriNetState.h:60-133 ColoredPetriNetStateEven: _map ([None] for the largest
    number), _currentIndex, _completedTransitions, _done and shuffle. *)
Record even := mkEv { e_map : list (option nat); e_index : nat; e_completed : nat; e_done : bool; e_shuffle : bool }.
Definition even0 : even := mkEv (repeat (Some 0) (length (kn_trans net))) 0 0 false false.

(** 79-100 getNextPair. *)
Fixpoint skip_max (l : list (option nat)) : nat :=
  match l with
  | None :: l' => S (skip_max l')
  | _ => 0
  end.
Definition get_next_pair (s : even) : nat * option nat * even :=
  if e_done s then (e_index s, None, s)
  else
    let i := e_index s + skip_max (skipn (e_index s) (e_map s)) in
    match nth_error (e_map s) i with
    | Some (Some bid) => (i, Some bid, mkEv (e_map s) (S i) (e_completed s) (e_done s) (e_shuffle s))
    | _ => (e_index s, None, mkEv (e_map s) 0 (e_completed s) (e_done s) true)
    end.

(** 103-119 updatePair. *)
Definition update_pair (s : even) (tid : nat) (bid : option nat) : even :=
  match nth_error (e_map s) tid with
  | None => s
  | Some old =>
    match bid, old with
    | Some k, _ => mkEv (upd (e_map s) tid (Some (S k))) (e_index s) (e_completed s) (e_done s) (e_shuffle s)
    | None, Some _ =>
      mkEv (upd (e_map s) tid None) (e_index s) (S (e_completed s))
           (if Nat.eqb (S (e_completed s)) (length (e_map s)) then true else e_done s) (e_shuffle s)
    | None, None => s
    end
  end.

(** ColoredSuccessorGenerator.h:99-123 _nextEven.  _transitions[tid] is read for every pair
    returned by getNextPair; [strict] says whether a read out of bounds, whose value is not
    used, is an error. *)
Fixpoint next_even (strict : bool) (fuel : nat) (M : kmark) (s : even) : res (gout even) :=
  match fuel with
  | O => NoFuel
  | S f =>
    let '(tid, bid, s1) := get_next_pair s in
    match bid with
    | None =>
      if strict && (length (kn_trans net) <=? tid) then UB
      else Ok (if e_done s1 then GDone
               else if e_shuffle s1 then GSkip (mkEv (e_map s1) (e_index s1) (e_completed s1) (e_done s1) false)
               else GDone)
    | Some bid =>
      t <- rd (kn_trans net) tid ;;
      r <- find_next M t bid ;;
      match r with
      | Some (k, b) =>
        M' <- kfire M t b ;; Ok (GSucc (update_pair s1 tid (Some k)) M' tid k)
      | None => next_even strict f M (update_pair s1 tid None)
      end
    end
  end.
Definition even_gen (strict : bool) (M : kmark) (s : even) : res (gout even) :=
  next_even strict (S (S (length (kn_trans net)))) M s.

(** ** ColoredEncoder.h *)

(** 185-194 _convertToTypeSize: the number of bytes. *)
Definition type_size (k : N) : nat :=
  if (k <? 256)%N then 1 else if (k <? 65536)%N then 2 else 4.

(** 232-257 _writeToPad: the low bytes, least significant first. *)
Fixpoint le_bytes (w : nat) (k : N) : list N :=
  match w with O => [] | S w' => (k mod 256)%N :: le_bytes w' (k / 256) end.

(** 129-141 _writeTokenCounts: the loop over the colours. *)
Fixpoint write_counts (w : nat) (fuel c : nat) (l : list (nat * Z)) : list N :=
  match fuel with
  | O => []
  | S f =>
    match l with
    | (d, k) :: l' =>
      if Nat.eqb d c then le_bytes w (Z.to_N k) ++ write_counts w f (S c) l'
      else le_bytes w 0 ++ write_counts w f (S c) l
    | [] => le_bytes w 0 ++ write_counts w f (S c) []
    end
  end.

(** 144-163 _writePlaceTokenCounts. *)
Definition nonzero (l : list (nat * Z)) : list (nat * Z) := filter (fun x => negb (Z.eqb (snd x) 0)) l.
Definition write_pairs (cw w : nat) (l : list (nat * Z)) : list N :=
  flat_map (fun x => le_bytes cw (N.of_nat (fst x)) ++ le_bytes w (Z.to_N (snd x))) l.

(** 46-59, 167-183: one place with its type signature. *)
Definition encode_place (size : nat) (m : ms) : list N :=
  let tokens := length (ms_counts m) in
  let w := type_size (highest m) in
  let cw := type_size (N.of_nat size) in
  if Nat.eqb tokens 0 then [2%N]
  else if tokens * 2 <=? size then
    1%N :: le_bytes cw (N.of_nat (length (nonzero (ms_counts m)))) ++ N.of_nat w :: write_pairs cw w (nonzero (ms_counts m))
  else 0%N :: N.of_nat w :: write_counts w size 0 (ms_counts m).

(** 40-70 encode: the bytes that represent the marking (the first UINT16_MAX ones when there
    are more), and whether it is represented in full. *)
Fixpoint encode_places (ps : list (list nat)) (M : kmark) : list N :=
  match ps, M with
  | sizes :: ps', m :: M' => encode_place (total_size sizes) m ++ encode_places ps' M'
  | _, _ => []
  end.
Definition encode (M : kmark) : list N * bool :=
  let e := encode_places (kn_places net) M in
  if (65535 <? N.of_nat (length e))%N then (firstn (N.to_nat 65535) e, false) else (e, true).

(** 260-286 _readFromEncoding; reading past the bytes that were written is UB.  Simplification:
    only encodings of at most UINT16_MAX bytes are decoded. *)
Fixpoint read_bytes (w : nat) (l : list N) : res (N * list N) :=
  match w with
  | O => Ok (0%N, l)
  | S w' =>
    match l with
    | [] => UB
    | x :: l' => r <- read_bytes w' l' ;; Ok ((x + 256 * fst r)%N, snd r)
    end
  end.
Definition read_size (l : list N) : res (nat * list N) :=
  r <- read_bytes 1 l ;;
  if existsb (N.eqb (fst r)) [1; 2; 4]%N then Ok (N.to_nat (fst r), snd r) else Throw.

(** 196-206 _decodeTokenCounts. *)
Fixpoint read_counts (w fuel c : nat) (l : list N) (m : ms) : res (ms * list N) :=
  match fuel with
  | O => Ok (m, l)
  | S f =>
    r <- read_bytes w l ;;
    m' <- (if (0 <? fst r)%N then set_count m c (Z.of_N (fst r)) else Ok m) ;;
    read_counts w f (S c) (snd r) m'
  end.

(** 208-222 _decodePlaceTokenCounts: the loop. *)
Fixpoint read_pairs (cw w fuel : nat) (l : list N) (m : ms) : res (ms * list N) :=
  match fuel with
  | O => Ok (m, l)
  | S f =>
    c <- read_bytes cw l ;;
    r <- read_bytes w (snd c) ;;
    m' <- (if N.eqb (fst r) 0 then Ok m else set_count m (N.to_nat (fst c)) (Z.of_N (fst r))) ;;
    read_pairs cw w f (snd r) m'
  end.

(** 72-95 decode: one place, all places. *)
Definition decode_place (size : nat) (l : list N) : res (ms * list N) :=
  let cw := type_size (N.of_nat size) in
  ty <- read_bytes 1 l ;;
  if N.eqb (fst ty) 2 then Ok (ms0, snd ty)
  else if N.eqb (fst ty) 1 then
    k <- read_bytes cw (snd ty) ;;
    w <- read_size (snd k) ;;
    read_pairs cw (fst w) (N.to_nat (fst k)) (snd w) ms0
  else if N.eqb (fst ty) 0 then
    w <- read_size (snd ty) ;;
    read_counts (fst w) size 0 (snd w) ms0
  else Throw.
Fixpoint decode_places (ps : list (list nat)) (l : list N) : res kmark :=
  match ps with
  | [] => Ok []
  | sizes :: ps' =>
    r <- decode_place (total_size sizes) l ;;
    M <- decode_places ps' (snd r) ;;
    Ok (fst r :: M)
  end.
Definition kdecode (l : list N) : res kmark := decode_places (kn_places net) l.

(** ** Queries (ExplicitQueryPropositionCompiler.cpp) *)

(** 137-142 getCount. *)
Definition term_count (M : kmark) (x : qterm) : res Z :=
  match x with
  | TLit k => Ok (k mod 4294967296)%Z
  | TPlace p => m <- rd M p ;; Ok (ms_card m)
  end.

(** FireabilityChecker.h:12-32. *)
Definition can_fire (M : kmark) (tid : nat) : res bool :=
  t <- rd (kn_trans net) tid ;;
  r <- find_next M t 0 ;;
  Ok (match r with Some _ => true | None => false end).
Fixpoint has_deadlock (M : kmark) (fuel tid : nat) : res bool :=
  match fuel with
  | O => Ok true
  | S f => c <- can_fire M tid ;; if c then Ok false else has_deadlock M f (S tid)
  end.

(** The methods eval. *)
Fixpoint query_eval (M : kmark) (q : kquery) : res bool :=
  match q with
  | KQAnd l =>
    (fix go (l : list kquery) : res bool :=
       match l with
       | [] => Ok true
       | x :: l' => v <- query_eval M x ;; if v then go l' else Ok false
       end) l
  | KQOr l =>
    (fix go (l : list kquery) : res bool :=
       match l with
       | [] => Ok false
       | x :: l' => v <- query_eval M x ;; if v then Ok true else go l'
       end) l
  | KQNot x => v <- query_eval M x ;; Ok (negb v)
  | KQLt l r => x <- term_count M l ;; y <- term_count M r ;; Ok (x <? y)%Z
  | KQLe l r => x <- term_count M l ;; y <- term_count M r ;; Ok (x <=? y)%Z
  | KQEq l r => x <- term_count M l ;; y <- term_count M r ;; Ok (Z.eqb x y)
  | KQNe l r => x <- term_count M l ;; y <- term_count M r ;; Ok (negb (Z.eqb x y))
  | KQDead => has_deadlock M (length (kn_trans net)) 0
  | KQFire t => can_fire M t
  end.

(** ** ExplicitWorklist.cpp *)

(** 194-206 _getResult. *)
Definition get_result (q : quant) (found full : bool) : bool :=
  if negb found && negb full then false
  else match q with QAG => negb found | QEF => found end.

Definition in_passed (e : list N) (l : list (list N)) : bool :=
  existsb (fun x => if list_eq_dec N.eq_dec e x then true else false) l.

Section Search.
Variable C : Type.
Variable gen : kmark -> C -> res (gout C).
Variable start : C.
(** Algorithms/ColoredSearchTypes.h: which of the waiting states next() returns; every
    order of the stack, the queue, the shuffled stack and the priority queue is covered. *)
Variable pick : nat -> nat.
Variable qt : quant.
Variable q : kquery.

(** A waiting state: its id, its marking and its position in the successors. *)
Definition wstate := (nat * kmark * C)%type.

(** StateMap (ExplicitWorklist.h:26-28): id, predecessor, transition, binding. *)
Definition smap := list (nat * (nat * nat * nat)).

(** The answer, isFullStatespace, _counterExampleId and _stateMap. *)
Record sresult := mkSR { sr_answer : bool; sr_full : bool; sr_id : option nat; sr_map : smap }.

Definition early (v : bool) : bool := Bool.eqb v (match qt with QEF => true | QAG => false end).

Fixpoint remove_at {A} (l : list A) (i : nat) : list A :=
  match l, i with
  | [], _ => []
  | _ :: l', O => l'
  | x :: l', S i' => x :: remove_at l' i'
  end.

(** 109-144: the main loop.  _constraintData is not part of the state; see [constraint_data]
    for shrinkState, which is called with a reference to the state that was just removed. *)
Fixpoint search_loop (fuel : nat) (waiting : list wstate) (passed : list (list N)) (full : bool)
    (nextid : nat) (map : smap) : res sresult :=
  match fuel with
  | O => NoFuel
  | S f =>
    match waiting with
    | [] => Ok (mkSR (get_result qt false full) full None map)
    | w0 :: _ =>
      let i := pick f mod length waiting in
      let '(id, M, c) := nth i waiting w0 in
      r <- gen M c ;;
      match r with
      | GDone => search_loop f (remove_at waiting i) passed full nextid map
      | GSkip c' => search_loop f (upd waiting i (id, M, c')) passed full nextid map
      | GSucc c' M' t bid =>
        let waiting' := upd waiting i (id, M, c') in
        let M1 := List.map ms_shrink M' in
        let '(e, ok) := encode M1 in
        let full' := full && ok in
        if in_passed e passed then search_loop f waiting' passed full' (S nextid) map
        else
          let map' := (nextid, (id, t, bid)) :: map in
          v <- query_eval M1 q ;;
          if early v then Ok (mkSR (get_result qt true full') full' (Some nextid) map')
          else search_loop f (waiting' ++ [(nextid, M1, start)]) (e :: passed) full' (S nextid) map'
      end
    end
  end.

(** 79-107 and 142-144 _genericSearch. *)
Definition search (fuel : nat) : res sresult :=
  let M := kn_init net in
  let '(e, full) := encode M in
  v <- query_eval M q ;;
  if early v then Ok (mkSR (get_result qt true full) full (Some 0) [])
  else if Nat.eqb (length (kn_trans net)) 0 then Ok (mkSR (get_result qt false full) full None [])
  else search_loop fuel [(0, M, start)] [e] full 1 [].

End Search.

(** 57-72 getTraceTo; ids are never 0 in the map. *)
Fixpoint find_step (m : smap) (id : nat) : option (nat * nat * nat) :=
  match m with
  | [] => None
  | (j, s) :: m' => if Nat.eqb j id then Some s else find_step m' id
  end.
Fixpoint trace_to (fuel : nat) (m : smap) (id : nat) (acc : list (nat * nat)) : res (option (list (nat * nat))) :=
  match fuel with
  | O => NoFuel
  | S f =>
    if Nat.eqb id 0 then Ok (Some acc)
    else match find_step m id with
         | None => Ok None
         | Some (pred, t, bid) => trace_to f m pred ((t, bid) :: acc)
         end
  end.

(** ExplicitColoredModelChecker.cpp:317-369 _translateTraceStep: the bindings and markings
    of the trace that is printed. *)
Fixpoint replay (M : kmark) (l : list (nat * nat)) : res (list (nat * binding * kmark)) :=
  match l with
  | [] => Ok []
  | (tid, bid) :: l' =>
    t <- rd (kn_trans net) tid ;;
    r <- find_next M t bid ;;
    (* the result of findNextValidBinding is not looked at *)
    let b := match r with Some (_, b) => b | None => [] end in
    M' <- kfire M t b ;;
    let M1 := map ms_shrink M' in
    rest <- replay M1 l' ;;
    Ok ((tid, b, M1) :: rest)
  end.

End Generator.
