(** Model of the linear programs of query simplification and of their collections. *)
From Verif Require Import Base PqlSyntax NetModel LpSpec MemberModel.
Set Implicit Arguments.

(** include/PetriEngine/Simplification/Vector.h:92-101: the non-zero coefficients *)
Fixpoint sparse (i : nat) (v : list Z) : lrow :=
  match v with
  | [] => []
  | z :: v => if Z.eqb z 0 then sparse (S i) v else (i, z) :: sparse (S i) v
  end.

(** include/PetriEngine/Simplification/LinearProgram.h:16-30, equation_t: bounds are doubles
    (exact here; None is infinite) *)
Record equation := mkEq { eq_row : lrow; eq_lo : option Z; eq_hi : option Z }.
(** LinearProgram.h:32-39: whether _result is IMPOSSIBLE, and _equations *)
Record prog := mkProg { pr_imp : bool; pr_eqs : list equation }.
Definition no_prog : prog := mkProg false [].

(** include/PetriEngine/Simplification/Vector.h:22-30 *)
Inductive lop := LEq | LLe | LGe | LLt | LGt.
(** src/PetriEngine/Simplification/LinearProgram.cpp:16-46 *)
Definition new_prog (r : lrow) (c : Z) (o : lop) : prog :=
  mkProg false
    [match o with
     | LLt => mkEq r None (Some (c - 1)%Z)
     | LGt => mkEq r (Some (c + 1)%Z) None
     | LLe => mkEq r None (Some c)
     | LGe => mkEq r (Some c) None
     | LEq => mkEq r (Some c) (Some c)
     end].

Definition omax (a b : option Z) : option Z :=
  match a, b with Some x, Some y => Some (Z.max x y) | Some x, None => Some x | None, b => b end.
Definition omin (a b : option Z) : option Z :=
  match a, b with Some x, Some y => Some (Z.min x y) | Some x, None => Some x | None, b => b end.

(** include/PetriEngine/Simplification/LinearPrograms.h:11-24 *)
Inductive verdict := VUnknown | VImpossible | VPossible.
(** LinearPrograms.h:44-116: SingleProgram, UnionCollection and MergeCollection with all
    their state, except _size, which only occurs in an assertion.  A collection belongs to
    one owner, so that the state is updated functionally. *)
Inductive coll :=
| Single (empty : bool) (res : verdict) (p : prog)
| Union (empty : bool) (res : verdict) (lps : list coll) (current : nat)
| Merge (empty : bool) (res : verdict) (left right : coll)
    (tmp : prog) (merge_right more_right rempty : bool) (nsat curr : nat).

Definition has_empty (c : coll) : bool :=
  match c with Single e _ _ | Union e _ _ _ | Merge e _ _ _ _ _ _ _ _ _ => e end.
Definition coll_res (c : coll) : verdict :=
  match c with Single _ r _ | Union _ r _ _ | Merge _ r _ _ _ _ _ _ _ _ => r end.
Definition set_res (c : coll) (v : verdict) : coll :=
  match c with
  | Single e _ p => Single e v p
  | Union e _ l c => Union e v l c
  | Merge e _ l r t a b f n k => Merge e v l r t a b f n k
  end.

(** LinearPrograms.cpp:247-257, the constructors of SingleProgram *)
Definition empty_single : coll := Single true VUnknown no_prog.
Definition single (m : member) (c : Z) (o : lop) : coll := Single false VUnknown (new_prog (sparse 0 (mb_vars m)) c o).
(** LinearPrograms.cpp:41-62, the constructors of UnionCollection *)
Definition union_of (l : list coll) : coll := Union false VUnknown l 0.
Definition known_sat (c : coll) : bool := match coll_res c with VPossible => true | _ => false end.
Definition union2 (a b : coll) : coll :=
  let e1 := has_empty a in
  if known_sat a || e1 then Union e1 VPossible [a; b] 0
  else let e2 := has_empty b in
       Union e2 (if known_sat b || e2 then VPossible else VUnknown) [a; b] 0.
(** LinearPrograms.cpp:125-132, the constructor of MergeCollection *)
Definition merge_of (a b : coll) : coll :=
  Merge (has_empty a && has_empty b) VUnknown a b no_prog true true false 0 0.

(** LinearPrograms.cpp:70-74 (lps[0] of an empty vector is undefined), 140-151 and
    LinearPrograms.h:111 *)
Fixpoint reset (c : coll) : res coll :=
  match c with
  | Single _ _ _ => Ok c
  | Union e v lps _ =>
    match lps with
    | [] => UB
    | a :: l => a' <- reset a ;; Ok (Union e v (a' :: l) 0)
    end
  | Merge e v l r _ _ _ _ n _ => r' <- reset r ;; Ok (Merge e v l r' no_prog true true false n 0)
  end.
(** depth of a collection, the bound for the recursion below *)
Fixpoint height (c : coll) : nat :=
  match c with
  | Single _ _ _ => 1
  | Union _ _ lps _ => S (fold_right Nat.max 0 (map height lps))
  | Merge _ _ l r _ _ _ _ _ _ => S (Nat.max (height l) (height r))
  end.

Section Lp.
  (** LPCache.h:25-34 gives one address for equal rows; programs are ordered by address *)
  Variable addr : lrow -> N.

  (** LinearProgram.cpp:433-476, make_union *)
  Fixpoint merge_eqs (a : list equation) : list equation -> list equation :=
    fix inner (b : list equation) : list equation :=
      match a, b with
      | [], b => b
      | a, [] => a
      | x :: a', y :: b' =>
        if (addr (eq_row x) <? addr (eq_row y))%N then x :: merge_eqs a' b
        else if (addr (eq_row y) <? addr (eq_row x))%N then y :: inner b'
        else mkEq (eq_row x) (omax (eq_lo x) (eq_lo y)) (omin (eq_hi x) (eq_hi y)) :: merge_eqs a' b'
      end.
  Definition make_union (p q : prog) : prog :=
    if pr_imp p || pr_imp q then mkProg true [] else mkProg false (merge_eqs (pr_eqs p) (pr_eqs q)).

  (** LinearPrograms.cpp:153-196, MergeCollection::merge, the loop.  [mrg] is the call for
      the members.  The parameter dry_run is false in every call.  The result is the new
      state, the program, has_empty and whether there is more. *)
  Definition mresult := (coll * prog * bool * bool)%type.
  Fixpoint merge_loop (mrg : coll -> prog -> res mresult) (k : nat)
    (e : bool) (v : verdict) (l r : coll) (tmp : prog) (mr more re : bool) (nsat curr : nat) (pg : prog) : res mresult :=
    match k with
    | O => NoFuel
    | S k =>
      q <- (if mr then
              x <- mrg r no_prog ;;
              let '(r', tmp', re', more') := x in
              l' <- reset l ;;
              Ok (l', r', tmp', more', re')
            else Ok (l, r, tmp, more, re)) ;;
      let '(l, r, tmp, more, re) := q in
      let curr := S curr in
      y <- mrg l pg ;;
      let '(l, prog, le, more_left) := y in
      let mr := negb more_left in
      let again := merge_loop mrg k e v l r tmp mr more re nsat curr pg in
      if (nsat <? curr) || negb (more_left || more) then
        if pr_imp prog && (more_left || more) then again
        else Ok (Merge e v l r tmp mr more re nsat curr, make_union prog tmp, le && re, more_left || more)
      else again
    end.
  (** LinearPrograms.cpp:76-92, UnionCollection::merge, the call of the current member *)
  Definition merge_nth (mrg : coll -> prog -> res mresult) :=
    fix go (lps : list coll) (i : nat) (pg : prog) : res (list coll * prog * bool * bool) :=
    match lps, i with
    | [], _ => UB
    | c :: lps, O => x <- mrg c pg ;; let '(c, p, e, more) := x in Ok (c :: lps, p, e, more)
    | c :: lps, S i => x <- go lps i pg ;; let '(lps, p, e, more) := x in Ok (c :: lps, p, e, more)
    end.
  Definition reset_nth :=
    fix go (lps : list coll) (i : nat) : res (list coll) :=
    match lps, i with
    | [], _ => Ok []
    | c :: lps, O => c <- reset c ;; Ok (c :: lps)
    | c :: lps, S i => lps <- go lps i ;; Ok (c :: lps)
    end.
  (** merge of the three classes; LinearPrograms.cpp:259-268 for SingleProgram *)
  Fixpoint merge (d : nat) (c : coll) (pg : prog) : res mresult :=
    match d with
    | O => NoFuel
    | S d =>
      match c with
      | Single e v p => Ok (c, make_union pg p, match pr_eqs p with [] => true | _ => false end, false)
      | Union e v lps cur =>
        let cur := if length lps <=? cur then 0 else cur in
        x <- merge_nth (merge d) lps cur pg ;;
        let '(lps, p, he, more) := x in
        if more then Ok (Union e v lps cur, p, he, cur <? length lps)
        else
          lps <- reset_nth lps (S cur) ;;
          Ok (Union e v lps (S cur), p, he, S cur <? length lps)
      | Merge e v l r tmp mr more re nsat curr =>
        if pr_imp pg then Ok (c, pg, false, false)
        else merge_loop (merge d) (S (S nsat)) e v l r tmp mr more re nsat curr pg
      end
    end.

  (** The environment: the n-th look at the clock, the n-th answers of the solver.  [M]
      threads the number of questions asked so far. *)
  Variable clock : nat -> bool.
  Variable simplex : nat -> lp -> glp_ret * glp_status.
  Variable intopt : nat -> lp -> glp_ret * glp_status.
  Definition M (A : Type) := nat -> res (A * nat).
  Definition ret {A} (a : A) : M A := fun s => Ok (a, s).
  Definition lift {A} (r : res A) : M A := fun s => a <- r ;; Ok (a, s).
  Definition mbind {A B} (x : M A) (f : A -> M B) : M B := fun s => p <- x s ;; f (fst p) (snd p).
  Notation "x <~ e1 ;; e2" := (mbind e1 (fun x => e2)) (at level 61, e1 at next level, right associativity).
  (** include/PetriEngine/PQL/Contexts.h:233-237, timeout() *)
  Definition timeout : M bool := fun s => Ok (clock s, S s).

  Variable net : cnet.
  Variable m0 : list N.

  (** src/PetriEngine/PQL/Contexts.cpp:107-144, one column of the base program: the input and
      output arcs are merged by place *)
  Definition pre_coef (iv : invariant) : Z := if iv_inhib iv then 0%Z else (- Z.of_N (iv_tokens iv))%Z.
  Fixpoint column (pre : list invariant) : list invariant -> lrow :=
    fix inner (post : list invariant) : lrow :=
      match pre, post with
      | [], [] => []
      | [], q :: post => (iv_place q, Z.of_N (iv_tokens q)) :: inner post
      | p :: pre, [] => (iv_place p, pre_coef p) :: column pre []
      | p :: pre', q :: post' =>
        if iv_place q <? iv_place p then (iv_place q, Z.of_N (iv_tokens q)) :: inner post'
        else if iv_place p <? iv_place q then (iv_place p, pre_coef p) :: column pre' post
        else (iv_place p, (Z.of_N (iv_tokens q) + pre_coef p)%Z) :: column pre' post'
      end.
  (** glp_set_mat_col stops the program if a row number occurs twice or is out of range *)
  Fixpoint distinct (l : list nat) : bool :=
    match l with [] => true | x :: l => negb (existsb (Nat.eqb x) l) && distinct l end.
  Definition check_column (c : lrow) : res lrow :=
    if distinct (map fst c) && forallb (fun e => fst e <? cn_places net) c then Ok c else Throw.
  Fixpoint columns (t k : nat) : res (list lrow) :=
    match k with
    | O => Ok []
    | S k =>
      a <- rd (cn_transitions net) t ;;
      b <- rd (cn_transitions net) (S t) ;;
      c <- check_column (column (slice (cn_invs net) (fst a) (snd a)) (slice (cn_invs net) (snd a) (fst b))) ;;
      r <- columns (S t) k ;;
      Ok (c :: r)
    end.
  (** Contexts.cpp:89-157, buildBase (with 146-155: the rows of the places are bounded below
      by the negated initial marking) *)
  Definition base_lp : res lp :=
    c <- columns 0 (cn_ntrans net) ;;
    Ok (mkLp (cn_ntrans net) c (map (fun v => - Z.of_N v)%Z m0) []).
  (** Contexts.cpp:78-87, makeBaseLP; a null pointer if the time was up when it was built *)
  Definition make_base : M (option lp) :=
    b <~ timeout ;;
    if b then ret None else P <~ lift base_lp ;; ret (Some P).
  (** Contexts.h:192-197, markingOutOfBounds *)
  Definition out_of_bounds : bool := existsb (fun v => (2 ^ 31 - 1 <? v)%N) m0.

  (** LinearProgram.cpp:78-109: the rows of the equations are added.  Inl: returns with this
      answer. *)
  Fixpoint add_rows (eqs : list equation) (rows : list (lrow * option Z * option Z)) : M (bool + list (lrow * option Z * option Z)) :=
    match eqs with
    | [] => ret (inr rows)
    | q :: eqs =>
      if match eq_lo q, eq_hi q with Some l, Some h => (h <? l)%Z | _, _ => false end then ret (inl true)
      else
        b <~ timeout ;;
        if b then ret (inl false)
        else add_rows eqs (rows ++ [(eq_row q, eq_lo q, eq_hi q)])
    end.
  (** LinearProgram.cpp:118-172: what is concluded from the answers of the solver *)
  Definition solve (P : lp) : M bool :=
    fun s =>
      let r := simplex s P in
      match fst r with
      | GDone =>
        match snd r with
        | GOpt =>
          let i := intopt (S s) P in
          match fst i with
          | GDone => Ok (match snd i with GOpt | GFeas | GUnbnd => false | _ => true end, S (S s))
          | _ => Ok (false, S (S s))
          end
        | GFeas | GUnbnd => Ok (false, S s)
        | _ => Ok (true, S s)
        end
      | GNoPrimal | GNoDual | GNoFeasible => Ok (true, S s)
      | GTimeLimit | GOther => Ok (false, S s)
      end.
  (** LinearProgram.cpp:50-175, isImpossible *)
  Definition is_impossible (p : prog) : M (prog * bool) :=
    if pr_imp p then ret (p, true)
    else if match pr_eqs p with [] => true | _ => false end then ret (p, false)
    else
      b <~ timeout ;;
      if b then ret (p, false)
      else if out_of_bounds then ret (p, false)
      else
        B <~ make_base ;;
        match B with
        | None => ret (p, false)
        | Some P =>
          rows <~ add_rows (pr_eqs p) [] ;;
          match rows with
          | inl true => ret (mkProg true (pr_eqs p), true)
          | inl false => ret (p, false)
          | inr rows =>
            i <~ solve (mkLp (lp_n P) (lp_columns P) (lp_lower P) rows) ;;
            ret (mkProg i (pr_eqs p), i)
          end
        end.

  (** LinearPrograms.cpp:198-232, MergeCollection::satisfiableImpl; [k] bounds the number of
      programs that are still to come *)
  Fixpoint sat_merge (k : nat) (c : coll) : M (coll * bool) :=
    match k with
    | O => lift NoFuel
    | S k =>
      b <~ timeout ;;
      if b then ret (c, true)
      else
        x <~ lift (merge (height c) c no_prog) ;;
        let '(c, p, he, more) := x in
        if he then ret (c, true)
        else
          b <~ timeout ;;
          if b then ret (c, true)
          else
            i <~ is_impossible p ;;
            if negb (snd i) then ret (c, true)
            else
              let c := match c with
                       | Merge e v l r t a b f n k => Merge e v l r t a b f (S n) k
                       | c => c
                       end in
              if more then sat_merge k c else ret (c, false)
    end.
  (** number of programs of a collection *)
  Fixpoint width (c : coll) : nat :=
    match c with
    | Single _ _ _ => 1
    | Union _ _ lps _ => fold_right Nat.add 0 (map width lps)
    | Merge _ _ l r _ _ _ _ _ _ => width l * width r
    end.
  (** LinearPrograms.cpp:94-110, UnionCollection::satisfiableImpl: from the last member to
      the first ([rl] is reversed); unsatisfiable members are erased *)
  Definition sat_union (f : coll -> M (coll * bool)) :=
    fix go (rl : list coll) (kept : list coll) : M (list coll * bool) :=
    match rl with
    | [] => ret (kept, false)
    | c :: rl =>
      x <~ f c ;;
      if snd x then ret (rev rl ++ fst x :: kept, true)
      else
        b <~ timeout ;;
        if b then ret (rev rl ++ fst x :: kept, true)
        else go rl kept
    end.
  (** LinearPrograms.cpp:11-27, satisfiable, with the three satisfiableImpl; the solve time
      is never 0 *)
  Fixpoint satisfiable (d : nat) (c : coll) : M (coll * bool) :=
    match d with
    | O => lift NoFuel
    | S d =>
      c <~ lift (reset c) ;;
      b <~ timeout ;;
      if b || has_empty c then ret (c, true)
      else if match coll_res c with VImpossible => true | _ => false end then ret (c, false)
      else
        x <~ match c with
             | Single e v p => i <~ is_impossible p ;; ret (Single e v (fst i), negb (snd i))
             | Union e v lps cur =>
               q <~ sat_union (satisfiable d) (rev lps) [] ;;
               (* line 108: an earlier POSSIBLE stays *)
               ret (Union e v (fst q) cur, snd q || match v with VPossible => true | _ => false end)
             | Merge _ v _ _ _ _ _ _ _ _ =>
               q <~ sat_merge (S (width c)) c ;;
               ret (fst q, snd q || match v with VPossible => true | _ => false end)
             end ;;
        ret (set_res (fst x) (if snd x then VPossible else VImpossible), snd x)
    end.
  Definition sat_coll (c : coll) : M (coll * bool) := satisfiable (height c) c.
End Lp.
