(** Model of the removal of redundant places from coloured nets
    (src/PetriEngine/Colored/Reduction/RedRuleRedundantPlaces.cpp) and of the multisets of
    variables it compares (VarMultiset.cpp, ArcVarMultisetVisitor.cpp). *)
From Verif Require Import Base ColSyntax ColModel ColRedModel.
Set Implicit Arguments.

(** VarMultiset.h:22-26: the types of the variables of a tuple, and the tuples with their
    numbers. *)
Definition vmset := (list nat * list (list nat * N))%type.
Definition vempty : vmset := ([], []).
Definition leqb (a b : list nat) : bool := if list_eq_dec Nat.eq_dec a b then true else false.

(** VarMultiset.cpp:84-92 operator[] for writing *)
Fixpoint vset_at (l : list (list nat * N)) (k : list nat) (f : N -> N) : list (list nat * N) :=
  match l with
  | [] => [(k, f 0%N)]
  | (j, x) :: l' => if leqb j k then (j, f x) :: l' else (j, x) :: vset_at l' k f
  end.
(** 75-82 operator[] for reading *)
Fixpoint vlook (l : list (list nat * N)) (k : list nat) : N :=
  match l with [] => 0%N | (j, x) :: l' => if leqb j k then x else vlook l' k end.
Definition vget (m : vmset) (k : list nat) : N := match fst m with [] => 0%N | _ => vlook (snd m) k end.
(** 50-57 operator+= *)
Definition vplus (m o : vmset) : res vmset :=
  let ty := match fst m with [] => fst o | t => t end in
  if leqb ty (fst o) then Ok (ty, fold_left (fun l x => vset_at l (fst x) (fun y => cw32 (y + snd x))) (snd o) (snd m)) else Throw.
(** 59-66 operator-=.  Every tuple is in the list once: assigning through operator[] changes
    the entry itself. *)
Definition vminus (m o : vmset) : res vmset :=
  let ty := match fst m with [] => fst o | t => t end in
  if match fst o with [] => true | _ => leqb ty (fst o) end
  then Ok (ty, map (fun x => (fst x, if (snd x <? vget o (fst x))%N then 0%N else (snd x - vget o (fst x))%N)) (snd m)) else Throw.
(** 68-72 operator*= *)
Definition vtimes (m : vmset) (k : N) : vmset := (fst m, map (fun x => (fst x, cw32 (snd x * k))) (snd m)).
(** 112-116 isSubsetOrEqTo, with empty() *)
Definition vsub_eq (m o : vmset) : res bool := d <- vminus m o ;; Ok (forallb (fun x => N.eqb (snd x) 0) (snd d)).

Section Extract.
Variable vars : list nat.
(** 10-12, 169-175: a multiset with one tuple *)
Definition vone (vt : list nat) (k : N) : vmset := (map (fun v => nth v vars 0) vt, [(vt, k)]).
(** ArcVarMultisetVisitor.cpp:18-29: the variables of a tuple; a tuple in a tuple fails the
    assertion. *)
Fixpoint tup_vars (es : list cexp) : res (option (list nat)) :=
  match es with
  | [] => Ok (Some [])
  | EVar v :: es' => r <- tup_vars es' ;; Ok (match r with Some l => Some (v :: l) | None => None end)
  | ETup _ :: _ => UB
  | _ :: _ => Ok None
  end.
(** 11-16 and the expressions that have no variables (ArcVarMultisetVisitor.h:27-77) *)
Definition col_vars (e : cexp) : res (option (list nat)) :=
  match e with
  | EVar v => Ok (Some [v])
  | ETup es => tup_vars es
  | _ => Ok None
  end.
(** 31-39 *)
Fixpoint num_loop (es : list cexp) (k : N) (m : vmset) : res (option vmset) :=
  match es with
  | [] => Ok (Some m)
  | e :: es' =>
    t <- col_vars e ;;
    match t with
    | None => Ok None
    | Some vt => m' <- vplus m (vone vt k) ;; num_loop es' k m'
    end
  end.
(** 41-66 extractVarMultiset *)
Fixpoint extract (a : aexp) : res (option vmset) :=
  match a with
  | ANum es k => num_loop es k vempty
  | AAdd es =>
    (fix go (es : list aexp) (m : vmset) : res (option vmset) :=
       match es with
       | [] => Ok (Some m)
       | e :: es' =>
         x <- extract e ;;
         match x with
         | None => Ok None
         | Some o => m' <- vplus m o ;; go es' m'
         end
       end) es vempty
  | ASub _ _ => Ok None
  | AScal e k => x <- extract e ;; Ok (match x with Some m => Some (vtimes m k) | None => None end)
  end.
End Extract.

Section Rule.
(** [used_p]: ColoredUseVisitor::isPlaceUsed; [vs]: the variables of a transition in the
    order of the generator's map; [timeout]: hasTimedOut when the place is looked at. *)
Variable used_p : nat -> bool.
Variable vs : nat -> list nat.
Variable timeout : nat -> bool.

(** RedRuleRedundantPlaces.cpp:74-87 markingEnablesInArc: for every binding *)
Fixpoint always_loop (n : cpn) (a : aexp) (mk : mset) (bs : list bmap) : res bool :=
  match bs with
  | [] => Ok true
  | b :: bs' =>
    m <- evaluate (cn_types n) (cn_map n) (cn_vars n) b a ;;
    e <- sub_or_eq n m mk ;;
    if e then always_loop n a mk bs' else Ok false
  end.
Definition always (n : cpn) (a : aexp) (mk : mset) (t : nat) : res bool :=
  bs <- naive_bindings (cn_types n) (cn_map n) (cn_vars n) (ct_guard (tr_of n t)) (vs t) ;; always_loop n a mk bs.

(** 33-61: the consumers *)
Fixpoint harmless_all (n : cpn) (p : nat) (mk : mset) (cs : list nat) : res bool :=
  match cs with
  | [] => Ok true
  | t :: cs' =>
    if (10000 <? binding_count vs n t)%N then Ok false
    else
      match find_arc p (ct_out (tr_of n t)) with
      | None => Ok false
      | Some o =>
        match find_arc p (ct_in (tr_of n t)) with
        | None => UB
        | Some i =>
          e <- always n i mk t ;;
          if e then
            x <- extract (cn_vars n) i ;;
            y <- extract (cn_vars n) o ;;
            match x, y with
            | Some x, Some y => s <- vsub_eq x y ;; if s then harmless_all n p mk cs' else Ok false
            | _, _ => Ok false
            end
          else Ok false
        end
      end
  end.
(** 26-68: one place *)
Definition redundant_place (r : rnet) (p : nat) : res rnet :=
  let n := r_net r in
  if existsb (Nat.eqb p) (r_pls r) then Ok r
  else if inhibiting n p then Ok r
  else if length (producers n p) <? length (consumers n p) then Ok r
  else if used_p p then Ok r
  else
    mk <- match nth_error (cn_pls n) p with Some pl => marking n pl | None => UB end ;;
    ok <- harmless_all n p mk (consumers n p) ;;
    Ok (if ok then skip_place r p else r).
(** 15-72 apply *)
Fixpoint redundant_loop (r : rnet) (ps : list nat) : res rnet :=
  match ps with
  | [] => Ok r
  | p :: ps' =>
    if length (cn_pls (r_net r)) - length (r_pls r) <=? 1 then Ok r
    else if timeout p then Ok r
    else r' <- redundant_place r p ;; redundant_loop r' ps'
  end.
Definition redundant_places (r : rnet) : res rnet := redundant_loop r (seq 0 (length (cn_pls (r_net r)))).
End Rule.
