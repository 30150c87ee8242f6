(** Model of the unfolding of coloured nets (C34): Colors.cpp, Multiset.cpp,
    EvaluationVisitor.cpp, BindingGenerator.cpp (NaiveBindingGenerator) and Unfolder.cpp,
    without colour partitioning (PartitionBuilder not computed). *)
From Verif Require Import Base BuilderModel BuilderSpec ColSyntax.
Set Implicit Arguments.

Definition cw32 (x : N) : N := (x mod 4294967296)%N.

(** A colour: its type and its number (Colors.h:45-112 Color). *)
Definition color := (nat * nat)%type.

Section Colours.
Variable tab : list tdecl.

(** Size of a constituent; constituents are enumerations (see ColSyntax). *)
Definition ksize (ty : nat) : nat :=
  match nth_error tab ty with Some (TEnum n) => n | _ => 0 end.

(** Colors.h:134-136, 217-223 size(). *)
Definition csize (ty : nat) : nat :=
  match nth_error tab ty with
  | Some (TEnum n) => n
  | Some (TProd cs) => fold_left (fun product c => product * ksize c) cs 1
  | None => 0
  end.

(** Colors.h:163-165, Colors.cpp:162-179 operator[](size_t).  The colour of a product keeps
    its index as its id; an index out of range is UB for an enumeration and fails the
    assertion id <= size (of the constructor) or yields a colour outside of the type for a
    product: UB for both. *)
Definition color_at (ty i : nat) : res color := if i <? csize ty then Ok (ty, i) else UB.

(** Colors.cpp:76-90 operator++ and operator--. *)
Definition color_succ (c : color) : res color :=
  if csize (fst c) - 1 <=? snd c then color_at (fst c) 0 else color_at (fst c) (snd c + 1).
Definition color_pred (c : color) : res color :=
  if snd c <=? 0 then color_at (fst c) (csize (fst c) - 1) else color_at (fst c) (snd c - 1).

(** Colors.cpp:168-175: the constituents of a colour of a product. *)
Fixpoint components (cs : list nat) (index div : nat) : list color :=
  match cs with
  | [] => []
  | c :: cs' => (c, (index / div) mod ksize c) :: components cs' index (div * ksize c)
  end.
Definition tuple_colors (c : color) : list color :=
  match nth_error tab (fst c) with
  | Some (TProd cs) => components cs (snd c) 1
  | _ => []
  end.
(** Colors.h:70-72 isTuple. *)
Definition is_tuple (c : color) : bool := 1 <? length (tuple_colors c).

(** Colors.cpp:181-195 ProductType::getColor(colors): [None] is nullptr. *)
Fixpoint get_color_loop (cs : list nat) (colors : list color) (product sum : nat) : option nat :=
  match cs, colors with
  | [], [] => Some sum
  | c :: cs', x :: xs =>
    if Nat.eqb (fst x) c then get_color_loop cs' xs (product * ksize c) (sum + product * snd x)
    else None
  | _, _ => None
  end.
Definition get_color (ty : nat) (colors : list color) : res color :=
  match nth_error tab ty with
  | Some (TProd cs) =>
    match get_color_loop cs colors 1 0 with
    | Some i => color_at ty i
    | None => UB
    end
  | _ => UB
  end.

(** EvaluationVisitor.h:51-60 findProductColorType; Colors.h:258-268 containsTypes. *)
Definition contains_types (ty : nat) (types : list nat) : bool :=
  match nth_error tab ty with
  | Some (TProd cs) => if list_eq_dec Nat.eq_dec cs types then true else false
  | _ => false
  end.
Definition find_product (m : list nat) (types : list nat) : option nat :=
  find (fun ty => contains_types ty types) m.

(** ** Multisets (Multiset.h:100-104: the type, or nullptr, and the pairs (id, count)) *)
Definition mset := (option nat * list (nat * N))%type.
Definition mempty : mset := (None, []).

(** Multiset.cpp:108-121: the const operator[]. *)
Fixpoint mlook (l : list (nat * N)) (i : nat) : N :=
  match l with
  | [] => 0%N
  | (j, k) :: l' => if Nat.eqb j i then k else mlook l' i
  end.
Definition mget (m : mset) (c : color) : N :=
  match fst m with
  | None => mlook (snd m) (snd c)
  | Some ty => if Nat.eqb ty (fst c) then mlook (snd m) (snd c) else 0%N
  end.

(** Multiset.cpp:123-138: the assignable operator[]; [f] is the update of the count. *)
Fixpoint mset_at (l : list (nat * N)) (i : nat) (f : N -> N) : list (nat * N) :=
  match l with
  | [] => [(i, f 0%N)]
  | (j, k) :: l' => if Nat.eqb j i then (j, f k) :: l' else (j, k) :: mset_at l' i f
  end.
Definition mput (m : mset) (c : color) (f : N -> N) : res mset :=
  let ty := match fst m with None => fst c | Some ty => ty end in
  if Nat.eqb ty (fst c) then Ok (Some ty, mset_at (snd m) (snd c) f) else Throw.

(** Multiset.cpp:32-38: the constructor from a vector. *)
Fixpoint mfill (m : mset) (l : list (color * N)) : res mset :=
  match l with
  | [] => Ok m
  | (c, k) :: l' => m' <- mput m c (fun x => cw32 (x + k)) ;; mfill m' l'
  end.

(** Multiset.cpp:69-77 and 87-93: colours of the elements; the colour of dot when the
    multiset has no type. *)
Definition mcolor (ty : option nat) (i : nat) : res color :=
  match ty with Some t => color_at t i | None => Ok (0, 0) end.

(** Multiset.cpp:62-78 operator+=. *)
Fixpoint madd_loop (ty : option nat) (m : mset) (l : list (nat * N)) : res mset :=
  match l with
  | [] => Ok m
  | (i, k) :: l' =>
    c <- mcolor ty i ;;
    m' <- mput m c (fun x => cw32 (x + k)) ;;
    madd_loop ty m' l'
  end.
Definition type_clash (a b : option nat) : bool :=
  match a, b with
  | Some x, Some y => negb (Nat.eqb x y)
  | None, Some _ => true
  | _, None => false
  end.
Definition madd (m other : mset) : res mset :=
  let ty := match fst m with None => fst other | Some t => Some t end in
  if type_clash ty (fst other) then Throw
  else madd_loop ty (ty, snd m) (snd other).

(** Multiset.cpp:80-95 operator-=: a saturating difference. *)
Fixpoint msub_loop (ty : option nat) (other m : mset) (l : list (nat * N)) : res mset :=
  match l with
  | [] => Ok m
  | (i, k) :: l' =>
    c <- mcolor ty i ;;
    let o := mget other c in
    m' <- mput m c (fun _ => if (k <? o)%N then 0%N else (k - o)%N) ;;
    msub_loop ty other m' l'
  end.
Definition msub (m other : mset) : res mset :=
  let ty := match fst m with None => fst other | Some t => Some t end in
  if type_clash ty (fst other) then Throw
  else msub_loop ty other (ty, snd m) (snd m).

(** Multiset.cpp:97-101 operator*=. *)
Definition mscale (m : mset) (k : N) : mset :=
  (fst m, map (fun x => (fst x, cw32 (snd x * k))) (snd m)).

(** Multiset.cpp:211-217 size(), a size_t. *)
Definition msize (m : mset) : N := sumN (map snd (snd m)).

(** ** EvaluationVisitor.cpp *)
Variable cmap : list nat.
Variable vars : list nat.

(** A BindingMap: variables with the number of their colour. *)
Definition bmap := list (nat * nat).
Fixpoint blook (b : bmap) (v : nat) : option nat :=
  match b with
  | [] => None
  | (u, i) :: b' => if Nat.eqb u v then Some i else blook b' v
  end.

Section Evaluate.
Variable b : bmap.

(** EvaluationVisitor.cpp:9-53 (lines 22-29 only without partition). *)
Fixpoint ceval (e : cexp) : res color :=
  match e with
  | EDot => color_at 0 0
  | EVar v => match blook b v with
              | Some i => color_at (nth v vars 0) i
              | None => UB
              end
  | EUser ty i => color_at ty i
  | ESucc e' => c <- ceval e' ;; color_succ c
  | EPred e' => c <- ceval e' ;; color_pred c
  | ETup es =>
    colors <- (fix go (es : list cexp) : res (list color) :=
                 match es with
                 | [] => Ok []
                 | e' :: es' => c <- ceval e' ;; cs <- go es' ;; Ok (c :: cs)
                 end) es ;;
    match find_product cmap (map fst colors) with
    | Some pt => get_color pt colors
    | None => UB
    end
  end.

(** EvaluationVisitor.cpp:57-71: order of addresses, which is the order of the numbers
    within one type; the order of addresses of colours of different types is unspecified
    (UB here). *)
Definition color_cmp (strict : bool) (x y : color) : res bool :=
  if is_tuple x || is_tuple y then Throw
  else if negb (Nat.eqb (fst x) (fst y)) then UB
  else Ok (if strict then snd x <? snd y else snd x <=? snd y).
(** 73-85: equality of addresses. *)
Definition color_eqb (x y : color) : bool := Nat.eqb (fst x) (fst y) && Nat.eqb (snd x) (snd y).

(** EvaluationVisitor.cpp:55-99; both operands are always evaluated. *)
Fixpoint geval (g : gexp) : res bool :=
  match g with
  | GLt l r => x <- ceval l ;; y <- ceval r ;; color_cmp true x y
  | GLe l r => x <- ceval l ;; y <- ceval r ;; color_cmp false x y
  | GEq l r => x <- ceval l ;; y <- ceval r ;; Ok (color_eqb x y)
  | GNe l r => x <- ceval l ;; y <- ceval r ;; Ok (negb (color_eqb x y))
  | GAnd l r => x <- geval l ;; y <- geval r ;; Ok (x && y)
  | GOr l r => x <- geval l ;; y <- geval r ;; Ok (x || y)
  end.

Fixpoint cevals (es : list cexp) (k : N) : res (list (color * N)) :=
  match es with
  | [] => Ok []
  | e :: es' => c <- ceval e ;; l <- cevals es' k ;; Ok ((c, k) :: l)
  end.

(** EvaluationVisitor.cpp:105-139; [m] is the visitor's field _mres, which a
    NumberOfExpression without elements leaves as it is. *)
Fixpoint aeval (a : aexp) (m : mset) : res mset :=
  match a with
  | ANum es k =>
    match es with
    | [] => Ok m
    | _ => l <- cevals es k ;; mfill mempty l
    end
  | AAdd es =>
    (fix go (es : list aexp) (m ms : mset) : res mset :=
       match es with
       | [] => Ok ms
       | e :: es' => m' <- aeval e m ;; ms' <- madd ms m' ;; go es' m' ms'
       end) es m mempty
  | ASub l r =>
    lhs <- aeval l m ;; rhs <- aeval r lhs ;; msub lhs rhs
  | AScal e k => m' <- aeval e m ;; Ok (mscale m' k)
  end.

(** EvaluationVisitor.cpp:141-146 evaluate: a fresh visitor. *)
Definition evaluate (a : aexp) : res mset := aeval a mempty.

End Evaluate.

(** ** NaiveBindingGenerator *)

(** BindingGenerator.cpp:81-88 eval(). *)
Definition gen_eval (g : option gexp) (b : bmap) : res bool :=
  match g with None => Ok true | Some g => geval b g end.

(** BindingGenerator.cpp:93-98: advance to the next binding; the map is iterated in the
    order of the list. *)
Fixpoint advance (b : bmap) : bmap :=
  match b with
  | [] => []
  | (v, i) :: b' =>
    let i' := if csize (nth v vars 0) - 1 <=? i then 0 else i + 1 in
    if Nat.eqb i' 0 then (v, i') :: advance b' else (v, i') :: b'
  end.

(** 112-117 isInitial. *)
Definition is_initial (b : bmap) : bool := forallb (fun x => Nat.eqb (snd x) 0) b.

(** 90-106 nextBinding. *)
Fixpoint next_binding (g : option gexp) (fuel : nat) (b : bmap) : res bmap :=
  match fuel with
  | O => NoFuel
  | S f =>
    let b' := advance b in
    if is_initial b' then Ok b'
    else test <- gen_eval g b' ;;
         if test then Ok b' else next_binding g f b'
  end.

(** The range-for over the generator (BindingGenerator.cpp:38-42, 119-127). *)
Fixpoint gen_loop (g : option gexp) (wrap fuel : nat) (b : bmap) : res (list bmap) :=
  match fuel with
  | O => NoFuel
  | S f =>
    b' <- next_binding g wrap b ;;
    if is_initial b' then Ok [b]
    else l <- gen_loop g wrap f b' ;; Ok (b :: l)
  end.

(** 48-79 the constructor and the loop; [vs] are the variables of the transition in the
    order of the map _bindings, and [fuel] is enough for all bindings
    ([naive_bindings] below). *)
Definition naive_gen (g : option gexp) (vs : list nat) (fuel : nat) : res (list bmap) :=
  let b0 := map (fun v => (v, 0)) vs in
  e0 <- gen_eval g b0 ;;
  b1 <- (if e0 then Ok b0 else next_binding g fuel b0) ;;
  e1 <- gen_eval g b1 ;;
  if negb e1 then Ok [] else gen_loop g fuel fuel b1.

Definition naive_bindings (g : option gexp) (vs : list nat) : res (list bmap) :=
  naive_gen g vs (S (fold_left (fun x v => x * csize (nth v vars 0)) vs 1)).

End Colours.

(** VariableVisitor.h:58-72, 125-: the variables of an expression. *)
Fixpoint cvars (e : cexp) : list nat :=
  match e with
  | EVar v => [v]
  | EDot | EUser _ _ => []
  | ESucc e' | EPred e' => cvars e'
  | ETup es => flat_map cvars es
  end.
Fixpoint gvars (g : gexp) : list nat :=
  match g with
  | GLt l r | GLe l r | GEq l r | GNe l r => cvars l ++ cvars r
  | GAnd l r | GOr l r => gvars l ++ gvars r
  end.
Fixpoint avars (a : aexp) : list nat :=
  match a with
  | ANum es _ => flat_map cvars es
  | AAdd es => flat_map avars es
  | ASub l r => avars l ++ avars r
  | AScal e _ => avars e
  end.
(** BindingGenerator.cpp:53-66. *)
Definition tvars (tr : ctrans) : list nat :=
  match ct_guard tr with Some g => gvars g | None => [] end ++
  flat_map (fun x => avars (snd x)) (ct_in tr) ++ flat_map (fun x => avars (snd x)) (ct_out tr).

(** ** Unfolder.cpp *)

(** Names of the unfolded places: place + "_" + number (Unfolder.cpp:139), place + "Sum"
    (216), place + "_orphan" (89, 102). *)
Inductive uname := UCol (p c : nat) | USum (p : nat) | UOrph (p : nat).

Section Unfold.
Variable n : cpn.
(** Interned names of the unfolded places and of the i-th binding of transition t
    (transition + "_" + i, Unfolder.cpp:181). *)
Variable enc : uname -> nat.
Variable enct : nat -> nat -> nat.
Notation tab := (cn_types n).

(** State: calls to the P/T builder so far, _ptplacenames (an entry is present exactly when
    its map is not empty), and which entries of _sumPlacesNames are set. *)
Record ust := mkU { u_calls : list call; u_pl : list (list (N * uname)); u_sum : list bool }.

Definition emit_call (s : ust) (c : call) : ust := mkU (u_calls s ++ [c]) (u_pl s) (u_sum s).

Fixpoint klook (l : list (N * uname)) (k : N) : option uname :=
  match l with
  | [] => None
  | (j, u) :: l' => if N.eqb j k then Some u else klook l' k
  end.

Definition pnames (s : ust) (p : nat) : list (N * uname) := nth p (u_pl s) [].
Definition register (s : ust) (p : nat) (k : N) (u : uname) : ust :=
  mkU (u_calls s) (upd (u_pl s) p (pnames s p ++ [(k, u)])) (u_sum s).
Definition set_sum (s : ust) (p : nat) : ust := mkU (u_calls s) (u_pl s) (upd (u_sum s) p true).

(** The initial multiset of a place (PNMLParser.cpp:696-702, evaluated without bindings). *)
Definition marking (pl : cplace) : res mset :=
  match cp_init pl with
  | None => Ok mempty
  | Some a => evaluate tab (cn_map n) (cn_vars n) [] a
  end.

(** Place::inhibitor (ColoredPetriNetBuilder.cpp:180-182). *)
Definition inhibiting (p : nat) : bool := existsb (fun x => Nat.eqb (fst (fst x)) p) (cn_inh n).

(** Unfolder.cpp:113-143 unfoldPlace, without partition. *)
Definition unfold_place (s : ust) (p : nat) (pl : cplace) (c : color) (id : N) : res ust :=
  m <- marking pl ;;
  let name := UCol p (snd c) in
  Ok (register (emit_call s (CPlace (enc name) (cw32 (mget m c)))) p id name).

(** Unfolder.cpp:241-285: the loop over the multiset.  Returns the state and shadowWeight
    (as an unsigned number). *)
Fixpoint arc_loop (s : ust) (p : nat) (pl : cplace) (input : bool) (tname : nat)
    (ty : option nat) (l : list (nat * N)) (shadow : N) : res (ust * N) :=
  match l with
  | [] => Ok (s, shadow)
  | (i, k) :: l' =>
    if N.eqb k 0 then arc_loop s p pl input tname ty l' shadow
    else
      c <- mcolor tab ty i ;;
      let id := N.of_nat (snd c) in
      s1 <- match klook (pnames s p) id with
            | Some _ => Ok s
            | None => unfold_place s p pl c id
            end ;;
      match klook (pnames s1 p) id with
      | None => UB
      | Some u =>
        let s2 := emit_call s1 (if input then CIn (enc u) tname false k else COut tname (enc u) k) in
        arc_loop s2 p pl input tname ty l' (cw32 (shadow + k))
      end
  end.

(** Creation of the sum place in unfoldArc (Unfolder.cpp:288-294). *)
Definition sum_place (s : ust) (p : nat) (pl : cplace) : res ust :=
  if nth p (u_sum s) false then Ok s
  else m <- marking pl ;;
       Ok (set_sum (emit_call s (CPlace (enc (USum p)) (cw32 (msize m)))) p).

(** Unfolder.cpp:230-308 unfoldArc. *)
Definition unfold_arc (b : bmap) (tname : nat) (input : bool) (s : ust) (x : nat * aexp) : res ust :=
  pl <- rd (cn_pls n) (fst x) ;;
  ms <- evaluate tab (cn_map n) (cn_vars n) b (snd x) ;;
  r <- arc_loop s (fst x) pl input tname (fst ms) (snd ms) 0%N ;;
  let '(s1, shadow) := r in
  if inhibiting (fst x) then
    s2 <- sum_place s1 (fst x) pl ;;
    (* shadowWeight is an int *)
    if (0 <? shadow)%N && (shadow <? 2147483648)%N then
      Ok (emit_call s2 (if input then CIn (enc (USum (fst x))) tname false shadow
                        else COut tname (enc (USum (fst x))) shadow))
    else Ok s2
  else Ok s1.

Fixpoint unfold_arcs (b : bmap) (tname : nat) (input : bool) (s : ust) (l : list (nat * aexp)) : res ust :=
  match l with
  | [] => Ok s
  | x :: l' => s' <- unfold_arc b tname input s x ;; unfold_arcs b tname input s' l'
  end.

(** Unfolder.cpp:205-228 unfoldInhibitorArc. *)
Fixpoint unfold_inhib (t tname : nat) (s : ust) (l : list (nat * nat * N)) : res ust :=
  match l with
  | [] => Ok s
  | (p, t', w) :: l' =>
    if Nat.eqb t' t then
      pl <- rd (cn_pls n) p ;;
      s1 <- (if nth p (u_sum s) false then Ok s
             else m <- marking pl ;;
                  let s0 := emit_call s (CPlace (enc (USum p)) (cw32 (msize m))) in
                  let s0' := match pnames s0 p with
                             | [] => register s0 p (N.of_nat (csize tab (cp_type pl))) (USum p)
                             | _ => s0
                             end in
                  Ok (set_sum s0' p)) ;;
      unfold_inhib t tname (emit_call s1 (CIn (enc (USum p)) tname true w)) l'
    else unfold_inhib t tname s l'
  end.

(** One binding (Unfolder.cpp:180-197). *)
Definition unfold_binding (t : nat) (tr : ctrans) (i : nat) (b : bmap) (s : ust) : res ust :=
  let tname := enct t i in
  s1 <- unfold_arcs b tname true (emit_call s (CTrans tname (ct_player tr))) (ct_in tr) ;;
  s2 <- unfold_arcs b tname false s1 (ct_out tr) ;;
  unfold_inhib t tname s2 (cn_inh n).

Fixpoint unfold_bindings (t : nat) (tr : ctrans) (i : nat) (bs : list bmap) (s : ust) : res ust :=
  match bs with
  | [] => Ok s
  | b :: bs' => s' <- unfold_binding t tr i b s ;; unfold_bindings t tr (S i) bs' s'
  end.

(** The bindings produced for each transition by the binding generator. *)
Variable gens : list (list bmap).

(** Unfolder.cpp:62-64 and 145-203. *)
Fixpoint unfold_transitions (t : nat) (l : list ctrans) (s : ust) : res ust :=
  match l with
  | [] => Ok s
  | tr :: l' => s' <- unfold_bindings t tr 0 (nth t gens []) s ;; unfold_transitions (S t) l' s'
  end.

(** Unfolder.cpp:84-111 handleOrphanPlace. *)
Definition orphan_place (p : nat) (pl : cplace) (s : ust) : res ust :=
  m <- marking pl ;;
  let sz := msize m in
  match pnames s p with
  | [] =>
    if (0 <? sz)%N then
      Ok (register (emit_call s (CPlace (enc (UOrph p)) (cw32 sz))) p 0%N (UOrph p))
    else
      Ok (register (emit_call s (CPlace (enc (UOrph p)) (cw32 sz))) p 4294967295%N (UOrph p))
  | names =>
    let used := fold_left (fun a x => cw32 (a + init_of (u_calls s) (enc (snd x)))) names 0%N in
    if (used <? sz)%N then
      Ok (register (emit_call s (CPlace (enc (UOrph p)) (cw32 (sz - used)))) p 4294967295%N (UOrph p))
    else Ok s
  end.

Fixpoint orphan_places (p : nat) (l : list cplace) (s : ust) : res ust :=
  match l with
  | [] => Ok s
  | pl :: l' => s' <- orphan_place p pl s ;; orphan_places (S p) l' s'
  end.

(** Unfolder.cpp:57-77 unfold(). *)
Definition unfold : res ust :=
  s <- unfold_transitions 0 (cn_trs n)
         (mkU [] (repeat [] (length (cn_pls n))) (repeat false (length (cn_pls n)))) ;;
  orphan_places 0 (cn_pls n) s.

(** _pttransitionnames: the names for transition t (Unfolder.cpp:195).  [None] when there
    is no entry, which is the case when no binding was found. *)
Definition tnames (t : nat) : list nat := map (enct t) (seq 0 (length (nth t gens []))).

End Unfold.

(** The bindings found by NaiveBindingGenerator; [vs t] is the order of the map of the
    variables of transition t. *)
Fixpoint naive_gens (n : cpn) (vs : nat -> list nat) (t : nat) (l : list ctrans) : res (list (list bmap)) :=
  match l with
  | [] => Ok []
  | tr :: l' =>
    bs <- naive_bindings (cn_types n) (cn_map n) (cn_vars n) (ct_guard tr) (vs t) ;;
    r <- naive_gens n vs (S t) l' ;;
    Ok (bs :: r)
  end.
Definition naive_unfold (n : cpn) (enc : uname -> nat) (enct : nat -> nat -> nat) (vs : nat -> list nat) :
    res (ust * list (list bmap)) :=
  gens <- naive_gens n vs 0 (cn_trs n) ;;
  s <- unfold n enc enct gens ;;
  Ok (s, gens).

(** Contexts.cpp:23-32 resolvePlace and Analyze.cpp:114-140: the unfolded places whose
    tokens are added up for a place of the query.  [names] are the entries of the map in
    the order in which the unordered_map is iterated. *)
Definition is_sum_name (u : uname) : bool := match u with USum _ => true | _ => false end.
Definition place_query (names : list uname) : res (list uname) :=
  match names with
  | [] => UB
  | [u] => Ok [u]
  | _ => if is_sum_name (last names (UOrph 0)) then Ok (removelast names) else Ok names
  end.
(** Analyze.cpp:415-436 (upper bounds) and 372-396 (stable marking): all the names. *)
Definition bounds_query (names : list uname) : list uname := names.
