(** Model of the evaluation of formulas, of the construction of conjunctions and
    disjunctions, and of the rewriting done by pushNegation. *)
From Verif Require Import Base PqlSyntax.
Set Implicit Arguments.

(** * Evaluation of expressions *)

(** src/PetriEngine/PQL/Evaluation.cpp:50-120, ExprEvalVisitor.  int64_t arithmetic is over
    Z here; [eval64] below keeps the width. *)
Definition tokz (m : list N) (p : nat) : Z := Z.of_N (nth p m 0%N).
Fixpoint eval (m : list N) (e : expr) : Z :=
  match e with
  | Lit z => z
  | Pl p => tokz m p
  | Ident e => eval m e
  | Minus e => - eval m e
  | Sub e es => fold_left (fun r x => r - eval m x) es (eval m e)
  | Plus c ids es => fold_left (fun r x => r + eval m x) es (fold_left (fun r p => r + tokz m p) ids c)
  | Mul c ids es => fold_left (fun r x => r * eval m x) es (fold_left (fun r p => r * tokz m p) ids c)
  end%Z.

(** The same with int64_t arithmetic: signed overflow is undefined. *)
Definition i64 (z : Z) : res Z :=
  if ((- 2 ^ 63 <=? z) && (z <? 2 ^ 63))%Z then Ok z else UB.
Section FoldM.
  Variables A B : Type.
  Variable f : B -> A -> res B.
  Fixpoint foldM (l : list A) (b : B) : res B :=
    match l with
    | [] => Ok b
    | x :: l' => b' <- f b x ;; foldM l' b'
    end.
End FoldM.
Fixpoint eval64 (m : list N) (e : expr) : res Z :=
  match e with
  | Lit z => Ok z
  | Pl p => Ok (tokz m p)
  | Ident e => eval64 m e
  | Minus e => v <- eval64 m e ;; i64 (- v)
  | Sub e es => v <- eval64 m e ;; foldM (fun r x => w <- eval64 m x ;; i64 (r - w)) es v
  | Plus c ids es =>
    v <- foldM (fun r p => i64 (r + tokz m p)) ids c ;;
    foldM (fun r x => w <- eval64 m x ;; i64 (r + w)) es v
  | Mul c ids es =>
    v <- foldM (fun r p => i64 (r * tokz m p)) ids c ;;
    foldM (fun r x => w <- eval64 m x ;; i64 (r * w)) es v
  end%Z.

(** src/PetriEngine/PQL/Expressions.cpp:246-268, placeFree; IdentifierExpr: Expressions.h. *)
Fixpoint place_free (e : expr) : bool :=
  match e with
  | Lit _ => true
  | Pl _ => false
  | Ident e | Minus e => place_free e
  | Sub e es => place_free e && forallb place_free es
  | Plus _ ids es | Mul _ ids es =>
    match ids with [] => forallb place_free es | _ => false end
  end.

(** Expressions.cpp:607-660, CommutativeExpr::handle and init, for sums ([mul] false) and
    products.  The state is (_constant, _ids, _exprs); std::sort of the ids is insertion
    sort; names are not modelled. *)
Definition apply (mul : bool) (a b : Z) : Z := if mul then (a * b)%Z else (a + b)%Z.
Definition comm := (Z * list nat * list expr)%type.
Fixpoint handle (mul : bool) (e : expr) (s : comm) : comm :=
  let '(c, ids, es) := s in
  if place_free e then (apply mul c (eval [] e), ids, es)
  else match e with
       | Ident e' => handle mul e' s
       | Pl p => (c, ids ++ [p], es)
       | Plus c2 ids2 es2 =>
         match ids2, es2 with
         | [], [] => (apply mul c c2, ids, es)
         | _, _ => if mul then (c, ids, es ++ [e])
                   else (apply mul c c2, ids ++ ids2, es ++ es2)
         end
       | Mul c2 ids2 es2 =>
         match ids2, es2 with
         | [], [] => (apply mul c c2, ids, es)
         | _, _ => if mul then (apply mul c c2, ids ++ ids2, es ++ es2)
                   else (c, ids, es ++ [e])
         end
       | _ => (c, ids, es ++ [e])
       end.
Fixpoint insert_id (p : nat) (l : list nat) : list nat :=
  match l with
  | [] => [p]
  | q :: l' => if p <=? q then p :: q :: l' else q :: insert_id p l'
  end.
Definition sort_ids (l : list nat) : list nat := fold_right insert_id [] l.
Definition init_comm (mul : bool) (l : list expr) : comm :=
  let '(c, ids, es) := fold_left (fun s e => handle mul e s) l (if mul then 1%Z else 0%Z, [], []) in
  (c, sort_ids ids, es).
Definition mk_plus (l : list expr) : expr := let '(c, ids, es) := init_comm false l in Plus c ids es.
Definition mk_mul (l : list expr) : expr := let '(c, ids, es) := init_comm true l in Mul c ids es.

(** * Evaluation of conditions *)

(** Condition::Result. *)
Inductive tv := RTrue | RFalse | RUnknown.
Definition tvb (b : bool) : tv := if b then RTrue else RFalse.

Definition compare (o : cmp) (x y : Z) : bool :=
  match o with
  | OpEq => (x =? y)%Z
  | OpNe => negb (x =? y)%Z
  | OpLt => (x <? y)%Z
  | OpLe => (x <=? y)%Z
  end.
(** Evaluation.cpp:250-256. *)
Definition cons_ok (m : list N) (c : cons) : bool :=
  ((nth (c_place c) m 0 <=? c_upper c) && (c_lower c <=? nth (c_place c) m 0))%N.

Definition only_true (v : tv) : tv := match v with RTrue => RTrue | _ => RUnknown end.
Definition only_false (v : tv) : tv := match v with RFalse => RFalse | _ => RUnknown end.
Definition until_tv (a b : tv) : tv :=
  match b with
  | RFalse => match a with RFalse => RFalse | _ => RUnknown end
  | _ => b
  end.

Section Evaluate.
  Variable dead : list N -> bool.   (* net()->deadlocked(marking), false without a net *)
  Variable m : list N.
  (** Evaluation.cpp:124-310, EvaluateVisitor. *)
  Fixpoint evaluate (c : cond) : tv :=
    match c with
    | CBool b => tvb b
    | CDead => tvb (dead m)
    | CNot c => match evaluate c with RUnknown => RUnknown | RFalse => RTrue | RTrue => RFalse end
    | CAnd l =>
      (fix go (l : list cond) (r : tv) : tv :=
         match l with
         | [] => r
         | c :: l' => match evaluate c with
                      | RFalse => RFalse
                      | RUnknown => go l' RUnknown
                      | RTrue => go l' r
                      end
         end) l RTrue
    | COr l =>
      (fix go (l : list cond) (r : tv) : tv :=
         match l with
         | [] => r
         | c :: l' => match evaluate c with
                      | RTrue => RTrue
                      | RUnknown => go l' RUnknown
                      | RFalse => go l' r
                      end
         end) l RFalse
    | CCmp o a b => tvb (compare o (eval m a) (eval m b))
    | CConj n cs => tvb (xorb n (forallb (cons_ok m) cs))
    | CEX _ | CAX _ | CX _ => RUnknown
    | CEF c | CAF c | CE c | CF c => only_true (evaluate c)
    | CEG c | CAG c | CA c | CG c => only_false (evaluate c)
    | CEU a b | CAU a b | CU a b => until_tv (evaluate a) (evaluate b)
    end.
End Evaluate.

(** * Conjunctions and disjunctions *)

(** include/PetriEngine/PQL/Expressions.h:836-862, cons_t::invert and intersect (32-bit
    arithmetic; the case of two proper bounds is excluded by an assertion). *)
Definition u32 (z : Z) : N := Z.to_N (z mod 2 ^ 32)%Z.
Definition no_cons (c : cons) : bool := ((c_lower c =? 0) && (c_upper c =? u32max))%N.
Definition invert (c : cons) : cons :=
  if no_cons c then c
  else if (c_lower c =? 0)%N then mkCons (c_place c) ((c_upper c + 1) mod 2 ^ 32) u32max
  else if (c_upper c =? u32max)%N then mkCons (c_place c) 0 (c_lower c - 1)
  else c.
Definition intersect (a b : cons) : cons :=
  mkCons (c_place a) (N.max (c_lower a) (c_lower b)) (N.min (c_upper a) (c_upper b)).
(** std::lower_bound and insertion, on a vector sorted by place. *)
Fixpoint add_cons (c : cons) (l : list cons) : list cons :=
  match l with
  | [] => [c]
  | d :: l' =>
    if c_place d <? c_place c then d :: add_cons c l'
    else if Nat.eqb (c_place d) (c_place c) then intersect d c :: l'
    else c :: d :: l'
  end.
(** Expressions.h:881-886, singular. *)
Definition singular (cs : list cons) : bool :=
  match cs with
  | [c] => ((c_lower c =? 0) || (c_upper c =? u32max))%N
  | _ => false
  end.
(** src/PetriEngine/PQL/Expressions.cpp:511-543, CompareConjunction::merge(other);
    [neg] is _negated != other._negated. *)
Definition merge_conj (neg : bool) (this other : list cons) : res (list cons) :=
  if neg && (1 <? length other) then Throw
  else foldM (fun l c =>
         let c := if neg then invert c else c in
         if no_cons c then Ok l
         else if negb (c_upper c =? u32max)%N && negb (c_lower c =? 0)%N && neg then Throw
         else Ok (add_cons c l)) other this.

(** Expressions.cpp:545-605, CompareConjunction(conditions, negated) with one comparison
    of a place with a constant; [val] is uint32_t.  Evaluated without a marking. *)
Definition cmp_parts (a b : expr) : nat * Z * bool :=
  match a with
  | Pl p => (p, eval [] b, false)
  | _ => match b with Pl p => (p, eval [] a, true) | _ => (0, 0%Z, true) end
  end.
Definition cmp_cons (negated : bool) (o : cmp) (a b : expr) : cons :=
  let '(p, z, inverted) := cmp_parts a b in
  let v := u32 z in
  let n := match o with
           | OpLe => if inverted then mkCons p v u32max else mkCons p 0 v
           | OpLt => if inverted then mkCons p ((v + 1) mod 2 ^ 32) u32max
                     else mkCons p 0 (u32 (Z.of_N v - 1))
           | OpEq | OpNe => mkCons p v v
           end in
  match o with
  | OpNe => n
  | _ => if negated then invert n else n
  end.
(** Expressions.cpp:61-62. *)
Definition is_pl (e : expr) : bool := match e with Pl _ => true | _ => false end.
Definition place_const (a b : expr) : bool :=
  (is_pl a && place_free b) || (is_pl b && place_free a).

(** Expressions.cpp:77-107: the branch of tryMerge for a CompareConjunction; [isor]: T is
    OrCondition.  The constructor CompareConjunction(bool) ignores its argument
    (Expressions.h:865), so the new conjunction of line 96 is not negated. *)
Definition merge_into (isor : bool) (conds : list cond) (n : bool) (cs : list cons) : res (list cond) :=
  if (if isor then n || singular cs else negb n || singular cs) then
    match conds with
    | CConj ln lcs :: rest =>
      if Bool.eqb ln isor then
        cs' <- merge_conj (xorb ln n) lcs cs ;; Ok (CConj ln cs' :: rest)
      else if Bool.eqb n isor then Ok (CConj n cs :: conds)
      else cs' <- merge_conj (xorb false n) [] cs ;; Ok (CConj false cs' :: conds)
    | _ => Ok (CConj n cs :: conds)
    end
  else Ok (conds ++ [CConj n cs]).

(** Expressions.cpp:44-115, tryMerge. *)
Definition merge_leaf (isor aggressive : bool) (c : cond) (conds : list cond) : res (list cond) :=
  if aggressive then
    match c with
    | CCmp o a b =>
      if match o with OpNe => negb isor | OpEq => isor | _ => false end then Ok (conds ++ [c])
      else if place_const a b then merge_into isor conds isor [cmp_cons isor o a b]
      else Ok (conds ++ [c])
    | CConj n cs => merge_into isor conds n cs
    | _ => Ok (conds ++ [c])
    end
  else Ok (conds ++ [c]).
Fixpoint try_merge (isor aggressive : bool) (c : cond) (conds : list cond) : res (list cond) :=
  let fix all (l : list cond) (acc : list cond) : res (list cond) :=
    match l with
    | [] => Ok acc
    | x :: l' => acc' <- try_merge isor aggressive x acc ;; all l' acc'
    end in
  match c with
  | CAnd l => if isor then merge_leaf isor aggressive c conds else all l conds
  | COr l => if isor then all l conds else merge_leaf isor aggressive c conds
  | _ => merge_leaf isor aggressive c conds
  end.
Fixpoint try_merge_all (isor aggressive : bool) (l : list cond) (acc : list cond) : res (list cond) :=
  match l with
  | [] => Ok acc
  | x :: l' => acc' <- try_merge isor aggressive x acc ;; try_merge_all isor aggressive l' acc'
  end.

(** src/PetriEngine/PQL/PredicateCheckers.cpp:50-72, isTemporal. *)
Fixpoint temporal (c : cond) : bool :=
  match c with
  | CBool _ | CDead | CCmp _ _ _ | CConj _ _ => false
  | CNot c => temporal c
  | CAnd l | COr l => existsb temporal l
  | _ => true
  end.
(** Expressions.cpp:473-478, postMerge: std::sort by isTemporal; the model keeps the order
    inside the two classes (std::sort may not). *)
Definition post_merge (l : list cond) : list cond :=
  filter (fun c => negb (temporal c)) l ++ filter temporal l.
(** Expressions.cpp:117-149, makeLog; makeOr and makeAnd. *)
Definition make_log (isor : bool) (l : list cond) : res cond :=
  match l with
  | [] => Ok (CBool (negb isor))
  | [c] => Ok c
  | _ =>
    cnds <- try_merge_all isor true l [] ;;
    ops <- try_merge_all isor false cnds [] ;;
    match post_merge ops with
    | [] => Ok (CBool (negb isor))
    | [c] => Ok c
    | ops' => Ok (if isor then COr ops' else CAnd ops')
    end
  end.
Definition make_or := make_log true.
Definition make_and := make_log false.

(** * pushNegation *)

(** src/PetriEngine/PQL/PushNegation.cpp:71-104, CompareCondition::isTrivial.  It removes
    common places from the two sides (the comparison is updated in place), for sums and
    also for products. *)
Fixpoint remdup (a : list nat) : list nat -> list nat * list nat :=
  fix inner (b : list nat) : list nat * list nat :=
    match a, b with
    | [], _ => (a, b)
    | _, [] => (a, b)
    | x :: a', y :: b' =>
      if x <? y then let r := remdup a' b in (x :: fst r, snd r)
      else if Nat.eqb x y then remdup a' b'
      else let r := inner b' in (fst r, y :: snd r)
    end.
Definition cancel (a b : expr) : expr * expr :=
  match a, b with
  | Plus c1 i1 s1, Plus c2 i2 s2 => let r := remdup i1 i2 in (Plus c1 (fst r) s1, Plus c2 (snd r) s2)
  | Mul c1 i1 s1, Mul c2 i2 s2 => let r := remdup i1 i2 in (Mul c1 (fst r) s1, Mul c2 (snd r) s2)
  | _, _ => (a, b)
  end.
Definition comm_size (e : expr) : option nat :=
  match e with
  | Plus _ i s | Mul _ i s => Some (length i + length s)
  | _ => None
  end.
Definition is_trivial (a b : expr) : bool :=
  match comm_size a, comm_size b with
  | Some n, Some k => Nat.eqb (n + k) 0
  | _, _ => place_free a && place_free b
  end.

(** PushNegation.cpp:615-645, CanBeNegativeVisitor. *)
Fixpoint can_neg (e : expr) : bool :=
  match e with
  | Lit z => (z <? 0)%Z
  | Pl _ => false
  | Ident e => can_neg e
  | Minus _ | Sub _ _ => true
  | Plus c _ es | Mul c _ es => (c <? 0)%Z || existsb can_neg es
  end.

(** PushNegation.cpp:530-570: the loop of pushAnd / pushOr over the operands.  [stop] is the
    truth value that ends the loop; [ef] selects what is collected in [nef]. *)
Inductive split := Stop (c : cond) | Parts (nef other : list cond).
Fixpoint split_ops (visit : cond -> res cond) (stop : bool) (ef : cond -> option cond)
    (l : list cond) (nef other : list cond) : res split :=
  match l with
  | [] => Ok (Parts nef other)
  | c :: l' =>
    n <- visit c ;;
    match n with
    | CBool b => if Bool.eqb b stop then Ok (Stop n) else split_ops visit stop ef l' nef other
    | _ => match ef n with
           | Some x => split_ops visit stop ef l' (nef ++ [x]) other
           | None => split_ops visit stop ef l' nef (other ++ [n])
           end
    end
  end.
Definition as_nef (c : cond) : option cond := match c with CNot (CEF x) => Some x | _ => None end.
Definition as_ef (c : cond) : option cond := match c with CEF x => Some x | _ => None end.
Definition is_ef (c : cond) : bool := match c with CEF _ => true | _ => false end.
Definition is_dead (c : cond) : bool := match c with CDead => true | _ => false end.
Definition is_ndead (c : cond) : bool := match c with CNot x => is_dead x | _ => false end.
Definition is_not (c : cond) : bool := match c with CNot _ => true | _ => false end.
Definition notif (b : bool) (c : cond) : cond := if b then CNot c else c.

Section Push.
  Variable dead : list N -> bool.
  Variable m0 : list N.      (* context.marking() *)
  Variable initrw : bool.

  (** PushNegation.cpp:36-57, initialMarkingRW (bounds queries are not modelled). *)
  Definition init_rw (nested : bool) (r : cond) : cond :=
    if negb nested && initrw then
      match evaluate dead m0 r with
      | RUnknown => r
      | RTrue => CBool true
      | RFalse => CBool false
      end
    else r.

  (** PushNegation.cpp:647-667, pushEqual. *)
  Definition push_equal (a b : expr) (negated noteq : bool) : cond :=
    let '(a, b) := cancel a b in
    let o := if noteq then OpNe else OpEq in
    if is_trivial a b then CBool (xorb (compare o (eval m0 a) (eval m0 b)) negated)
    else
      let zero e := place_free e && (eval m0 e =? 0)%Z in
      let rw e := if Bool.eqb negated noteq then CCmp OpLe e (Lit 0) else CCmp OpLe (Lit 1) e in
      if zero a && negb (can_neg b) then rw b
      else if zero b && negb (can_neg a) then rw a
      else if Bool.eqb negated noteq then CCmp OpEq a b else CCmp OpNe a b.

  (** PushNegation.cpp:527-585, pushAnd and pushOr after the loop. *)
  Definition finish_and (nef other : list cond) : res cond :=
    match nef, other with
    | [], [] => Ok (CBool true)
    | [x], [] => Ok (CNot (CEF x))
    | [], [x] => Ok x
    | [], _ => make_and other
    | _, _ =>
      o <- make_or nef ;;
      let other' := other ++ [CNot (CEF o)] in
      match other' with [x] => Ok x | _ => make_and other' end
    end.
  Definition finish_or (nef other : list cond) : res cond :=
    match nef, other with
    | [], [] => Ok (CBool false)
    | [x], [] => Ok (CEF x)
    | [], [x] => Ok x
    | [], _ => make_or other
    | _, _ =>
      o <- make_or nef ;;
      let other' := other ++ [CEF o] in
      match other' with [x] => Ok x | _ => make_or other' end
    end.
  Definition push_and (visit : cond -> res cond) (l : list cond) : res cond :=
    s <- split_ops visit false as_nef l [] [] ;;
    match s with Stop c => Ok c | Parts nef other => finish_and nef other end.
  Definition push_or (visit : cond -> res cond) (l : list cond) : res cond :=
    s <- split_ops visit true as_ef l [] [] ;;
    match s with Stop c => Ok c | Parts nef other => finish_or nef other end.

  (** PushNegation.cpp:106-740, PushNegationVisitor; [push fuel nested negated c] is
      subvisit.  Results of subvisit share the constants, so comparing pointers with
      TRUE_CONSTANT, FALSE_CONSTANT and DEADLOCK is comparing formulas. *)
  Fixpoint push (fuel : nat) (nested negated : bool) (c : cond) : res cond :=
    match fuel with
    | O => NoFuel
    | S f =>
      let rw r := x <- r ;; Ok (init_rw nested x) in
      match c with
      | CEG c => push f nested (negb negated) (CAF (CNot c))
      | CAG c => push f nested (negb negated) (CEF (CNot c))
      | CEX c => rw (
          a <- push f true negated c ;;
          if negated then push f nested false (CAX a)
          else match a with
               | CBool false => Ok a
               | CBool true => Ok (CNot CDead)
               | _ => Ok (CEX a)
               end)
      | CAX c => rw (
          a <- push f true negated c ;;
          if negated then push f nested false (CEX a)
          else match a with
               | CBool true => Ok a
               | CBool false => Ok CDead
               | _ => Ok (CAX a)
               end)
      | CEF c => rw (
          a <- push f true false c ;;
          if is_ndead a then push f nested negated a
          else if negb (temporal a) then Ok (notif negated (CEF a))
          else match a with
               | CEF _ => Ok (notif negated a)
               | CAF x => push f nested negated (CEF x)
               | CEU _ y | CAU _ y => push f nested negated (CEF y)
               | COr l => o <- make_or (map CEF l) ;; push f nested negated o
               | _ => Ok (notif negated (CEF a))
               end)
      | CAF c => rw (
          a <- push f true false c ;;
          if is_ndead a then push f nested negated a
          else match a with
          | CAF _ | CEF _ => Ok (notif negated a)
          | COr l =>
            let pef := filter is_ef l in
            let npef := filter (fun x => negb (is_ef x)) l in
            match pef with
            | [] => Ok (notif negated (CAF a))
            | _ => n <- make_or npef ;; o <- make_or (pef ++ [CAF n]) ;; push f nested negated o
            end
          | CAU _ y => push f nested negated (CAF y)
          | _ => Ok (notif negated (CAF a))
          end)
      | CAU c1 c2 => rw (
          b <- push f true false c2 ;;
          a <- push f true false c1 ;;
          let rest :=
            match b with
            | CAF _ => push f nested negated b
            | CEF _ => Ok (notif negated b)
            | COr l =>
              let pef := filter is_ef l in
              let npef := filter (fun x => negb (is_ef x)) l in
              match pef with
              | [] => Ok (notif negated (CAU a b))
              | _ =>
                o <- match npef with
                     | [] => make_or pef
                     | _ => n <- make_or npef ;; make_or (pef ++ [CAU c1 n])
                     end ;;
                push f nested negated o
              end
            | _ => Ok (notif negated (CAU a b))
            end in
          if is_ndead b then push f nested negated b
          else if is_not b then rest
          else if is_dead a then push f nested negated b
          else if is_ndead a then push f nested negated (CAF b)
          else rest)
      | CEU c1 c2 => rw (
          b <- push f true false c2 ;;
          a <- push f true false c1 ;;
          let rest :=
            match b with
            | CEF _ => Ok (notif negated b)
            | COr l =>
              let pef := filter is_ef l in
              let npef := filter (fun x => negb (is_ef x)) l in
              match pef with
              | [] => Ok (notif negated (CEU a b))
              | _ =>
                o <- match npef with
                     | [] => make_or pef
                     | _ => n <- make_or npef ;; make_or (pef ++ [CEU c1 n])
                     end ;;
                push f nested negated o
              end
            | _ => Ok (notif negated (CEU a b))
            end in
          if is_ndead b then push f nested negated b
          else if is_not b then rest
          else if is_dead a then push f nested negated b
          else if is_ndead a then push f nested negated (CEF b)
          else rest)
      | CU c1 c2 => rw (
          b <- push f true false c2 ;;
          a <- push f true false c1 ;;
          match b with
          | CF _ => Ok (notif negated b)
          | _ => Ok (notif negated (CU a b))
          end)
      | CX c => rw (
          a <- push f true negated c ;;
          match a with
          | CBool _ => Ok a
          | _ => Ok (CX a)
          end)
      | CF c => rw (
          a <- push f true false c ;;
          if negb (temporal a) then Ok (notif negated (CF a))
          else match a with
               | CF _ => Ok (notif negated a)
               | CU _ y | CEU _ y | CAU _ y => push f nested negated (CF y)
               | COr l => o <- make_or (map CF l) ;; push f nested negated o
               | _ => Ok (notif negated (CF a))
               end)
      | CG c => push f nested (negb negated) (CF (CNot c))
      | CA c => push f nested (negb negated) (CE (CNot c))
      | CE c => a <- push f nested negated c ;; Ok (if negated then CA a else CE a)
      | COr l => rw (if negated then push_and (push f nested true) l else push_or (push f nested false) l)
      | CAnd l => rw (if negated then push_or (push f nested true) l else push_and (push f nested false) l)
      | CConj n cs => rw (Ok (CConj (xorb n negated) cs))
      | CNot c => rw (push f nested (negb negated) c)
      | CCmp OpLt a b => rw (
          let '(a, b) := cancel a b in
          Ok (if is_trivial a b then CBool (xorb (compare OpLt (eval m0 a) (eval m0 b)) negated)
              else if negated then CCmp OpLe b a else CCmp OpLt a b))
      | CCmp OpLe a b => rw (
          let '(a, b) := cancel a b in
          Ok (if is_trivial a b then CBool (xorb (compare OpLe (eval m0 a) (eval m0 b)) negated)
              else if negated then CCmp OpLt b a else CCmp OpLe a b))
      | CCmp OpNe a b => rw (Ok (push_equal a b negated true))
      | CCmp OpEq a b => rw (Ok (push_equal a b negated false))
      | CBool b => rw (Ok (CBool (xorb negated b)))
      | CDead => rw (Ok (notif negated CDead))
      end
    end.
End Push.
(** PushNegation.cpp:59-64: pushNegation(cond) without context. *)
Definition push_negation (fuel : nat) (c : cond) : res cond := push (fun _ => false) [] false fuel false false c.
