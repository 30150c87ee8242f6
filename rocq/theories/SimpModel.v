(** Model of query simplification with linear programs (class Simplifier). *)
From Verif Require Import Base PqlSyntax PqlModel NetModel LpSpec MemberModel LpModel.
Set Implicit Arguments.

(** include/PetriEngine/Simplification/Retval.h:7-72 *)
Record retval := mkRv { rv_f : cond; rv_lps : coll; rv_neg : coll }.
(** Retval.h:30-37, the constructor for a formula alone *)
Definition only (f : cond) : retval := mkRv f empty_single empty_single.

(** PQL.h:173-175, isTriviallyTrue and isTriviallyFalse: only constants are trivial *)
Definition trivially (b : bool) (f : cond) : bool := match f with CBool c => Bool.eqb b c | _ => false end.

(** src/PetriEngine/PQL/Simplifier.cpp:32-45, mergeLps (null for no programs) *)
Fixpoint merge_lps_loop (k : nat) (l : list coll) (i j : nat) : res (list coll) :=
  match k with
  | O => NoFuel
  | S k =>
    match i with
    | O => Ok l
    | S i' =>
      if i <=? j then merge_lps_loop k l i 0
      else
        a <- rd l j ;;
        b <- rd l i ;;
        l <- wr l j (merge_of a b) ;;
        merge_lps_loop k l i' (S j)
    end
  end.
Definition merge_lps (l : list coll) : res (option coll) :=
  match l with
  | [] => Ok None
  | _ => l <- merge_lps_loop (2 * length l) l (length l - 1) 0 ;; a <- rd l 0 ;; Ok (Some a)
  end.

(** int constant = x - y; overflow is undefined *)
Definition int_sub (x y : Z) : res Z :=
  if ((- 2 ^ 31 <=? x - y) && (x - y <? 2 ^ 31))%Z then Ok (x - y)%Z else UB.

Section Simp.
  Variable addr : lrow -> N.
  Variable clock : nat -> bool.
  Variable simplex : nat -> lp -> glp_ret * glp_status.
  Variable intopt : nat -> lp -> glp_ret * glp_status.
  Variable net : cnet.
  Variable m0 : list N.
  Notation "x <~ e1 ;; e2" := (mbind e1 (fun x => e2)) (at level 61, e1 at next level, right associativity).
  Notation sat := (sat_coll addr clock simplex intopt net m0).
  Notation tick := (timeout clock).

  (** r.formula->isTriviallyTrue() || !r.neglps->satisfiable(_context), and the same for false *)
  Definition surely_true (r : retval) : M (retval * bool) :=
    if trivially true (rv_f r) then ret (r, true)
    else x <~ sat (rv_neg r) ;; ret (mkRv (rv_f r) (rv_lps r) (fst x), negb (snd x)).
  Definition surely_false (r : retval) : M (retval * bool) :=
    if trivially false (rv_f r) then ret (r, true)
    else x <~ sat (rv_lps r) ;; ret (mkRv (rv_f r) (fst x) (rv_neg r), negb (snd x)).
  (** Simplifier.cpp:139-213, the simplification of quantifiers: [t] if the operand is true
      everywhere, [f] if false everywhere *)
  Definition quant (t f : cond) (k : cond -> cond) (r : retval) : M retval :=
    x <~ surely_true r ;;
    if snd x then ret (only t)
    else
      y <~ surely_false (fst x) ;;
      if snd y then ret (only f) else ret (only (k (rv_f (fst y)))).
  Definition simp_q := quant (CBool true) (CBool false).
  Definition simp_AX := quant (CBool true) CDead CAX.
  Definition simp_EX := quant (CNot CDead) (CBool false) CEX.

  (** Simplifier.cpp:48-135, simplify_or and simplify_and, the loop over the operands; None:
      an operand decides *)
  Definition ops_loop (f : cond -> M retval) (isor : bool) :=
    fix go (l : list cond) (acc : list retval) : M (option (list retval)) :=
    match l with
    | [] => ret (Some acc)
    | c :: l =>
      r <~ f c ;;
      if trivially isor (rv_f r) then ret None
      else if trivially (negb isor) (rv_f r) then go l acc
      else go l (acc ++ [r])
    end.
  Definition simp_log (isor : bool) (o : option (list retval)) : M retval :=
    match o with
    | None => ret (only (CBool isor))
    | Some rs =>
      c <~ lift (merge_lps (map (if isor then rv_neg else rv_lps) rs)) ;;
      match c with
      | None => ret (only (CBool (negb isor)))
      | Some c =>
        t <~ tick ;;
        x <~ (if t then ret (c, true) else sat c) ;;
        if negb (snd x) then ret (only (CBool isor))
        else
          f <~ lift (make_log isor (map rv_f rs)) ;;
          ret (if isor then mkRv f (union_of (map rv_lps rs)) (fst x) else mkRv f (fst x) (union_of (map rv_neg rs)))
      end
    end.

  (** the end of the comparisons, Simplifier.cpp:364-377, 407-421, 451-464, 493-507;
      [neg_first]: which collection is looked at first *)
  Definition decide (neg_first : bool) (f : cond) (lps neglps : coll) : M retval :=
    if neg_first then
      t <~ tick ;;
      x <~ (if t then ret (neglps, true) else sat neglps) ;;
      if negb (snd x) then ret (only (CBool true))
      else
        t <~ tick ;;
        y <~ (if t then ret (lps, true) else sat lps) ;;
        if negb (snd y) then ret (only (CBool false)) else ret (mkRv f (fst y) (fst x))
    else
      t <~ tick ;;
      x <~ (if t then ret (lps, true) else sat lps) ;;
      if negb (snd x) then ret (only (CBool false))
      else
        t <~ tick ;;
        y <~ (if t then ret (neglps, true) else sat neglps) ;;
        if negb (snd y) then ret (only (CBool true)) else ret (mkRv f (fst x) (fst y)).
  (** Simplifier.cpp:340-422, LessThanCondition and LessThanOrEqualCondition *)
  Definition simp_less (strict neg : bool) (a b : expr) : M retval :=
    m1 <~ lift (constraint net m0 a) ;;
    m2 <~ lift (constraint net m0 b) ;;
    let f := if neg then CCmp (if strict then OpLe else OpLt) b a else CCmp (if strict then OpLt else OpLe) a b in
    t <~ tick ;;
    if negb t && mb_ok m1 && mb_ok m2 then
      (* m1 >= m2 is trivialLessThan(m2, m1, <=), and m1 > m2 is the strict one *)
      match (if neg then trivial_lt (negb strict) m2 m1 else trivial_lt strict m1 m2) with
      | Some r => ret (only (CBool r))
      | None =>
        k <~ lift (int_sub (mb_int m2) (mb_int m1)) ;;
        let m := mb_sub m1 m2 in
        let pos := if strict then LLt else LLe in
        let inv := if strict then LGe else LGt in
        decide (negb strict) f (single m k (if neg then inv else pos)) (single m k (if neg then pos else inv))
      end
    else decide (negb strict) f empty_single empty_single.
  (** Simplifier.cpp:424-508, EqualCondition and NotEqualCondition *)
  Definition simp_equal (eq neg : bool) (a b : expr) : M retval :=
    m1 <~ lift (constraint net m0 a) ;;
    m2 <~ lift (constraint net m0 b) ;;
    let want := Bool.eqb eq (negb neg) in
    let f := CCmp (if want then OpEq else OpNe) a b in
    t <~ tick ;;
    if negb t && mb_ok m1 && mb_ok m2 then
      if (mb_zero m1 && mb_zero m2) || mb_same m1 m2 then
        ret (only (CBool (Bool.eqb want (Z.eqb (mb_int m1) (mb_int m2)))))
      else
        k <~ lift (int_sub (mb_int m2) (mb_int m1)) ;;
        let m := mb_sub m1 m2 in
        let same := single m k LEq in
        let differ := union2 (single m k LGt) (single m k LLt) in
        if want then decide false f same differ else decide false f differ same
    else decide false f empty_single empty_single.

  (** Simplifier.cpp:524-575, CompareConjunction: one bound, m1 <= m2.  None: trivially
      false; Some None: trivially true *)
  Definition bound (m1 m2 : member) : res (option (option (coll * coll))) :=
    match trivial_lt false m1 m2 with
    | Some false => Ok None
    | Some true => Ok (Some None)
    | None =>
      k <- int_sub (mb_int m2) (mb_int m1) ;;
      let m := mb_sub m1 m2 in
      Ok (Some (Some (single m k LLe, single m k LGt)))
    end.
  Definition no_bound (c : cons) : bool := ((c_lower c =? 0) && (c_upper c =? u32max))%N.
  Definition set_lower (c : cons) (v : N) : cons := mkCons (c_place c) v (c_upper c).
  Definition set_upper (c : cons) (v : N) : cons := mkCons (c_place c) (c_lower c) v.
  Definition lower_bound (c : cons) : res (option (cons * list (coll * coll))) :=
    if (c_lower c =? 0)%N then Ok (Some (c, []))
    else
      m2 <- member_for_place net m0 (c_place c) ;;
      r <- bound (member_int (Z.of_N (c_lower c))) m2 ;;
      Ok match r with
         | None => None
         | Some None => Some (set_lower c 0%N, [])
         | Some (Some p) => Some (c, [p])
         end.
  Definition upper_bound (c : cons) : res (option (cons * list (coll * coll))) :=
    if (c_upper c =? u32max)%N then Ok (Some (c, []))
    else
      m1 <- member_for_place net m0 (c_place c) ;;
      r <- bound m1 (member_int (Z.of_N (c_upper c))) ;;
      Ok match r with
         | None => None
         | Some None => Some (set_upper c u32max, [])
         | Some (Some p) => Some (c, [p])
         end.
  Fixpoint bounds (cs : list cons) : res (option (list cons * list (coll * coll))) :=
    match cs with
    | [] => Ok (Some ([], []))
    | c :: cs =>
      l <- lower_bound c ;;
      match l with
      | None => Ok None
      | Some (c, lo) =>
        u <- upper_bound c ;;
        match u with
        | None => Ok None
        | Some (c, up) =>
          r <- bounds cs ;;
          Ok match r with
             | None => None
             | Some (ncs, ps) => Some (if no_bound c then ncs else c :: ncs, lo ++ up ++ ps)
             end
        end
      end
    end.
  (** Simplifier.cpp:590-617, from the last bound to the first: bounds that always hold are
      removed.  The lists are reversed; [kc], [kn]: what is kept so far. *)
  Definition drop_one (present : bool) (c dropped : cons) (rn kn : list coll) : M (cons * list coll * list coll) :=
    if present then
      match rn with
      | [] => lift UB
      | n :: rn =>
        x <~ sat n ;;
        ret (if snd x then (c, rn, fst x :: kn) else (dropped, rn, kn))
      end
    else ret (c, rn, kn).
  Fixpoint prune (rcs : list cons) (rn : list coll) (kc : list cons) (kn : list coll) : M (list cons * list coll) :=
    match rcs with
    | [] => ret (kc, rev rn ++ kn)
    | c :: rcs' =>
      t <~ tick ;;
      if t then ret (rev rcs ++ kc, rev rn ++ kn)
      else
        x <~ drop_one (negb (c_upper c =? u32max)%N) c (set_upper c u32max) rn kn ;;
        let '(c1, rn, kn) := x in
        y <~ drop_one (negb (c_lower c =? 0)%N) c1 (set_lower c1 0%N) rn kn ;;
        let '(c2, rn, kn) := y in
        prune rcs' rn (if no_bound c2 then kc else c2 :: kc) kn
    end.
  (** Simplifier.cpp:623-665: the formula that is left; numbers are converted to int *)
  Definition conj_left (neg : bool) (cs : list cons) : res cond :=
    match cs with
    | [c] =>
      let id := Pl (c_place c) in
      let ll := Lit (i32 (Z.of_N (c_lower c))) in
      let lu := Lit (i32 (Z.of_N (c_upper c))) in
      if (c_lower c =? c_upper c)%N then
        Ok (if negb (c_lower c =? 0)%N then CCmp (if neg then OpNe else OpEq) id lu
            else if neg then CCmp OpLt lu id else CCmp OpLe id lu)
      else if negb (c_lower c =? 0)%N && negb (c_upper c =? u32max)%N then
        if neg then make_or [CCmp OpLt id ll; CCmp OpLt lu id] else make_and [CCmp OpLe ll id; CCmp OpLe id lu]
      else if negb (c_lower c =? 0)%N then Ok (if neg then CCmp OpLt id ll else CCmp OpLe ll id)
      else Ok (if neg then CCmp OpLt lu id else CCmp OpLe id lu)
    | _ => Ok (CConj neg cs)
    end.
  (** Simplifier.cpp:518-673 *)
  Definition simp_conj (negated isneg : bool) (cs : list cons) : M retval :=
    t <~ tick ;;
    let neg := xorb negated isneg in
    if t then ret (only (CConj neg cs))
    else
      b <~ lift (bounds cs) ;;
      match b with
      | None => ret (only (CBool neg))
      | Some (ncs, ps) =>
        lps <~ lift (merge_lps (map fst ps)) ;;
        match lps with
        | None =>
          (* if the time is up, no bound is left, and lines 618-620 return the same *)
          t <~ tick ;;
          _ <~ (if t then tick else ret true) ;;
          match ncs with [] => ret (only (CBool (negb neg))) | _ => if t then lift UB else ret (only (CBool (negb neg))) end
        | Some lps =>
          t <~ tick ;;
          x <~ (if t then ret (lps, true) else sat lps) ;;
          if negb (snd x) then ret (only (CBool neg))
          else
            q <~ prune (rev ncs) (rev (map snd ps)) [] [] ;;
            match fst q with
            | [] => ret (only (CBool (negb neg)))
            | ncs =>
              f <~ lift (conj_left neg ncs) ;;
              ret (if neg then mkRv f (union_of (snd q)) (fst x) else mkRv f (fst x) (union_of (snd q)))
            end
        end
      end.

  (** Simplifier.cpp:746-872, until: [ev] is EF, AF or F, [un] is EU, AU or U *)
  Definition simp_until (f : cond -> M retval) (ev : cond -> cond) (un : cond -> cond -> cond) (neg : bool) (a b : cond) : M retval :=
    r2 <~ f b ;;
    x <~ surely_true r2 ;;
    if snd x then ret (only (CBool (negb neg)))
    else
      y <~ surely_false (fst x) ;;
      if snd y then ret (only (CBool neg))
      else
        let r2 := fst y in
        r1 <~ f a ;;
        z <~ surely_true r1 ;;
        if snd z then ret (only (if neg then CNot (ev (rv_f r2)) else ev (rv_f r2)))
        else
          u <~ surely_false (fst z) ;;
          if snd u then ret (if neg then only (CNot (rv_f r2)) else r2)
          else ret (only (if neg then CNot (un (rv_f (fst u)) (rv_f r2)) else un (rv_f (fst u)) (rv_f r2))).

  (** Simplifier.cpp:302-933, the visitor; [neg] is _context.negated().  For E and A an
      assertion fails (874-886). *)
  Fixpoint simp (neg : bool) (c : cond) : M retval :=
    match c with
    | CBool b => ret (only (CBool (xorb neg b)))
    | CDead => ret (only (if neg then CNot CDead else CDead))
    | CNot c => simp (negb neg) c
    | CAnd l =>
      t <~ tick ;;
      if t then f <~ lift (make_and l) ;; ret (only (if neg then CNot f else f))
      else o <~ ops_loop (simp neg) neg l [] ;; simp_log neg o
    | COr l =>
      t <~ tick ;;
      if t then f <~ lift (make_or l) ;; ret (only (if neg then CNot f else f))
      else o <~ ops_loop (simp neg) (negb neg) l [] ;; simp_log (negb neg) o
    | CCmp OpLt a b => simp_less true neg a b
    | CCmp OpLe a b => simp_less false neg a b
    | CCmp OpEq a b => simp_equal true neg a b
    | CCmp OpNe a b => simp_equal false neg a b
    | CConj isneg cs => simp_conj neg isneg cs
    | CEF c => r <~ simp neg c ;; simp_q (if neg then CAG else CEF) r
    | CAG c => r <~ simp neg c ;; simp_q (if neg then CEF else CAG) r
    | CAF c => r <~ simp neg c ;; simp_q (if neg then CEG else CAF) r
    | CEG c => r <~ simp neg c ;; simp_q (if neg then CAF else CEG) r
    | CEX c => r <~ simp neg c ;; if neg then simp_AX r else simp_EX r
    | CAX c => r <~ simp neg c ;; if neg then simp_EX r else simp_AX r
    | CEU a b => simp_until (simp false) CEF CEU neg a b
    | CAU a b => simp_until (simp false) CAF CAU neg a b
    | CU a b => simp_until (simp false) CF CU neg a b
    | CF c => r <~ simp neg c ;; simp_q (if neg then CG else CF) r
    | CG c => r <~ simp neg c ;; simp_q (if neg then CF else CG) r
    | CX c => r <~ simp neg c ;; simp_q CX r
    | CE _ | CA _ => lift UB
    end.
  (** Simplifier.cpp:26-30, simplify *)
  Definition simplify (c : cond) : M cond := r <~ simp false c ;; ret (rv_f r).
End Simp.
