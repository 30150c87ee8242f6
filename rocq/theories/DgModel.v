(** Model of the certain-zero algorithm on dependency graphs, with its search strategy and
    the reference counting of edges. *)
From Verif Require Import Base DgSpec.
Set Implicit Arguments.

(** include/CTL/DependencyGraph/Edge.h:14-16. *)
Inductive asg := Unknown | Zero | One | CZero.
Definition asg_eq (a b : asg) : bool :=
  match a, b with Unknown, Unknown | Zero, Zero | One, One | CZero, CZero => true | _, _ => false end.
(** include/CTL/DependencyGraph/Configuration.h:31, isDone. *)
Definition done (a : asg) : bool := match a with One | CZero => true | _ => false end.

(** for (x : l) s = f(s, x) *)
Fixpoint each (S A : Type) (f : S -> A -> res S) (l : list A) (s : S) : res S :=
  match l with
  | [] => Ok s
  | x :: l => s <- f s x ;; each f l s
  end.

Section Dg.
  Variable conf : Type.
  Variable ceq : forall a b : conf, {a = b} + {a <> b}.
  (** The edges that BasicDependencyGraph::successors returns, in order, with the targets in
      the order of the list in the edge. *)
  Variable g : graph conf.
  (** Addresses of edges: dependency sets are sorted by pointer. *)
  Variable addr : nat -> nat.

  (** Edge.h:18-46; edges are named by their position in the allocator.  [e_src = None] is
      the null pointer. *)
  Record edge := mkEdge {
    e_src : option conf; e_tgts : list conf; e_neg : bool;
    e_status : nat; e_processed : bool; e_handled : bool; e_ref : Z
  }.
  (** Configuration.h:17-36. *)
  Record cfg := mkCfg { c_asg : asg; c_nsuccs : nat; c_dist : nat; c_deps : list nat }.
  (** The configurations, the edges, the recycled edges (OnTheFlyDG.h:106) and the lists of
      the search strategy (SearchStrategy.h:54-55 and the W of its subclasses). *)
  Record st := mkSt {
    s_cfg : conf -> cfg; s_edges : list edge; s_rec : list nat;
    s_W : list nat; s_N : list nat; s_D : list nat
  }.
  Definition st_init : st := mkSt (fun _ => mkCfg Unknown 0 0 []) [] [] [] [] [].

  Definition asg_of (s : st) (c : conf) : asg := c_asg (s_cfg s c).
  Definition set_cfg (s : st) (c : conf) (v : cfg) : st :=
    mkSt (fun x => if ceq x c then v else s_cfg s x) (s_edges s) (s_rec s) (s_W s) (s_N s) (s_D s).
  Definition set_edge (s : st) (i : nat) (e : edge) : st :=
    mkSt (s_cfg s) (upd (s_edges s) i e) (s_rec s) (s_W s) (s_N s) (s_D s).
  Definition set_lists (s : st) (W N D : list nat) : st :=
    mkSt (s_cfg s) (s_edges s) (s_rec s) W N D.
  Definition set_ref (e : edge) (r : Z) : edge :=
    mkEdge (e_src e) (e_tgts e) (e_neg e) (e_status e) (e_processed e) (e_handled e) r.
  Definition set_push (e : edge) (status : nat) : edge :=
    mkEdge (e_src e) (e_tgts e) (e_neg e) status (e_processed e) (e_handled e) (e_ref e + 1).

  (** Use of an edge: a released one has no source. *)
  Definition get (s : st) (i : nat) : res (edge * conf) :=
    e <- rd (s_edges s) i ;;
    match e_src e with
    | None => UB
    | Some c => if (e_ref e <? 0)%Z then UB else Ok (e, c)
    end.
  (** src/CTL/PetriNets/OnTheFlyDG.cpp:627-637, release; the assertion is included.  The
      status is not reset. *)
  Definition release (s : st) (i : nat) : res st :=
    e <- rd (s_edges s) i ;;
    if negb (e_ref e =? 0)%Z then UB
    else Ok (mkSt (s_cfg s) (upd (s_edges s) i (mkEdge None [] false (e_status e) false false (-1)))
               (i :: s_rec s) (s_W s) (s_N s) (s_D s)).
  (** --refcnt; if(refcnt == 0) release(e) *)
  Definition drop (s : st) (i : nat) : res st :=
    r <- get s i ;;
    let e := set_ref (fst r) (e_ref (fst r) - 1) in
    let s := set_edge s i e in
    if (e_ref e =? 0)%Z then release s i else Ok s.
  (** OnTheFlyDG.cpp:645-667, newEdge, followed by the insertion of the targets. *)
  Definition new_edge (s : st) (c : conf) (h : hedge conf) : res (st * nat) :=
    match s_rec s with
    | [] =>
      Ok (mkSt (s_cfg s) (s_edges s ++ [mkEdge (Some c) (h_targets h) (h_neg h) 0 false false 1]) []
            (s_W s) (s_N s) (s_D s), length (s_edges s))
    | i :: r =>
      e <- rd (s_edges s) i ;;
      es <- wr (s_edges s) i (mkEdge (Some c) (h_targets h) (h_neg h) (e_status e) (e_processed e) (e_handled e) 1) ;;
      Ok (mkSt (s_cfg s) es r (s_W s) (s_N s) (s_D s), i)
    end.
  Fixpoint new_edges (s : st) (c : conf) (hs : list (hedge conf)) : res (st * list nat) :=
    match hs with
    | [] => Ok (s, [])
    | h :: hs =>
      r <- new_edge s c h ;;
      r' <- new_edges (fst r) c hs ;;
      Ok (fst r', snd r :: snd r')
    end.

  (** src/CTL/SearchStrategy/SearchStrategy.cpp:20-31 and 113-128: every target ONE or some
      target CZERO. *)
  Definition decided (s : st) (ts : list conf) : bool :=
    forallb (fun t => asg_eq (asg_of s t) One) ts || existsb (fun t => asg_eq (asg_of s t) CZero) ts.
  (** SearchStrategy.cpp:14-41, pushNegation. *)
  Definition push_negation (s : st) (i : nat) : res st :=
    r <- get s i ;;
    let s := set_edge s i (set_push (fst r) 3) in
    if decided s (e_tgts (fst r)) then Ok (set_lists s (s_W s) (s_N s) (s_D s ++ [i]))
    else Ok (set_lists s (s_W s) (s_N s ++ [i]) (s_D s)).
  (** SearchStrategy.cpp:43-54, pushEdge. *)
  Definition push_edge (s : st) (i : nat) : res st :=
    r <- get s i ;;
    if (0 <? e_status (fst r)) || done (asg_of s (snd r)) then Ok s
    else if e_processed (fst r) && e_neg (fst r) then push_negation s i
    else Ok (set_lists (set_edge s i (set_push (fst r) 1)) (s_W s ++ [i]) (s_N s) (s_D s)).
  (** SearchStrategy.cpp:56-62, pushDependency. *)
  Definition push_dependency (s : st) (i : nat) : res st :=
    r <- get s i ;;
    if done (asg_of s (snd r)) then Ok s
    else Ok (set_lists (set_edge s i (set_push (fst r) 2)) (s_W s) (s_N s) (s_D s ++ [i])).
  (** SearchStrategy.cpp:64-82, popEdge(false): the last edge of D, else an edge of W.  The
      strategies differ in which edge of W they take; [k] is that choice. *)
  Definition pop (s : st) (k : nat) : res (option (nat * st)) :=
    match rev (s_D s), s_W s with
    | i :: d, _ =>
      r <- get s i ;;
      let e := fst r in
      Ok (Some (i, set_lists (set_edge s i (mkEdge (e_src e) (e_tgts e) (e_neg e) 0 (e_processed e) (e_handled e) (e_ref e - 1)))
                     (s_W s) (s_N s) (rev d)))
    | [], [] => Ok None
    | [], w :: ws =>
      let k := k mod length (w :: ws) in
      let i := nth k (w :: ws) 0 in
      r <- get s i ;;
      let e := fst r in
      Ok (Some (i, set_lists (set_edge s i (mkEdge (e_src e) (e_tgts e) (e_neg e) 0 (e_processed e) (e_handled e) (e_ref e - 1)))
                     (firstn k (w :: ws) ++ skipn (S k) (w :: ws)) (s_N s) (s_D s)))
    end.
  (** SearchStrategy.cpp:84-94, maxDistance. *)
  Fixpoint max_distance (s : st) (l : list nat) : res nat :=
    match l with
    | [] => Ok 0
    | i :: l =>
      r <- get s i ;;
      m <- max_distance s l ;;
      Ok (if done (asg_of s (snd r)) then m else Nat.max m (c_dist (s_cfg s (snd r))))
    end.
  (** SearchStrategy.cpp:100-113, releaseNegationEdges: the edge after a removed one is
      skipped.  Result: what stays in N, and what goes to W. *)
  Fixpoint release_neg (s : st) (dist : nat) (l : list nat) : res (list nat * list nat) :=
    match l with
    | [] => Ok ([], [])
    | i :: l =>
      r <- get s i ;;
      if (dist <=? c_dist (s_cfg s (snd r))) || done (asg_of s (snd r)) then
        match l with
        | [] => Ok ([], [i])
        | j :: l => p <- release_neg s dist l ;; Ok (j :: fst p, i :: snd p)
        end
      else p <- release_neg s dist l ;; Ok (i :: fst p, snd p)
    end.
  Definition release_negation_edges (s : st) : res st :=
    d <- max_distance s (s_N s) ;;
    p <- release_neg s d (s_N s) ;;
    Ok (set_lists s (s_W s ++ snd p) (fst p) (s_D s)).
  (** SearchStrategy.cpp:115-143, trivialNegation, with the same skipping. *)
  Fixpoint trivial (s : st) (l : list nat) : res (list nat * list nat) :=
    match l with
    | [] => Ok ([], [])
    | i :: l =>
      r <- get s i ;;
      if decided s (e_tgts (fst r)) then
        match l with
        | [] => Ok ([], [i])
        | j :: l => p <- trivial s l ;; Ok (j :: fst p, i :: snd p)
        end
      else p <- trivial s l ;; Ok (i :: fst p, snd p)
    end.
  Definition trivial_negation (s : st) : res st :=
    p <- trivial s (s_N s) ;;
    Ok (set_lists s (s_W s) (fst p) (s_D s ++ snd p)).

  (** src/CTL/DependencyGraph/Configuration.cpp:6-22, addDependency. *)
  Fixpoint insert (i : nat) (l : list nat) : list nat * bool :=
    match l with
    | [] => ([i], true)
    | j :: l' =>
      if Nat.eqb j i then (l, false)
      else if addr i <? addr j then (i :: l, true)
      else (j :: fst (insert i l'), snd (insert i l'))
    end.
  Definition add_dependency (s : st) (t : conf) (i : nat) : res st :=
    let v := s_cfg s t in
    if asg_eq (c_asg v) One then Ok s
    else
      r <- get s i ;;
      let sd := c_dist (s_cfg s (snd r)) + (if e_neg (fst r) then 1 else 0) in
      let p := insert i (c_deps v) in
      let s := set_cfg s t (mkCfg (c_asg v) (c_nsuccs v) (Nat.max sd (c_dist v)) (fst p)) in
      Ok (if snd p then set_edge s i (set_ref (fst r) (e_ref (fst r) + 1)) else s).

  (** src/CTL/Algorithm/CertainZeroFPA.cpp:174-208, finalAssign.  The dependency set is
      cleared after the loop in the code, which does not look at it in between. *)
  Definition final_dep (a : asg) (s : st) (i : nat) : res st :=
    r <- get s i ;;
    s <- (if done (asg_of s (snd r)) then Ok s
          else if negb (e_neg (fst r)) || asg_eq a CZero then push_dependency s i
          else push_negation s i) ;;
    drop s i.
  Definition final_assign (s : st) (c : conf) (a : asg) : res st :=
    let v := s_cfg s c in
    each (final_dep a) (c_deps v) (set_cfg s c (mkCfg a 0 (c_dist v) [])).

  (** CertainZeroFPA.cpp:67-100, the loop over the targets: what is left of the list, all
      ONE, some CZERO, lastUndecided. *)
  Fixpoint scan (s : st) (ts : list conf) (last : option conf) : list conf * bool * bool * option conf :=
    match ts with
    | [] => ([], true, false, last)
    | t :: r =>
      match asg_of s t with
      | One => scan s r last
      | CZero => (ts, false, true, last)
      | a =>
        let last := match last with
                    | None => Some t
                    | Some l => if asg_eq (asg_of s l) Unknown && asg_eq a Zero then Some t else last
                    end in
        let q := scan s r last in
        (t :: fst (fst (fst q)), false, snd (fst q), snd q)
      end
    end.

  (** CertainZeroFPA.cpp:46-167, checkEdge; [explore] is called for lastUndecided. *)
  Section Check.
    Variable only_assign : bool.
    Variable explore : st -> conf -> res st.
    Definition handle (s : st) (i : nat) : res st :=
      r <- get s i ;;
      let e := fst r in
      let c := snd r in
      let v := s_cfg s c in
      match c_nsuccs v with
      | O => UB
      | S n =>
        let s := set_cfg s c (mkCfg (c_asg v) n (c_dist v) (c_deps v)) in
        if (e_ref e <? 1)%Z then UB
        else
          let s := set_edge s i (mkEdge (e_src e) (e_tgts e) (e_neg e) (e_status e) (e_processed e) true
                                   (if only_assign then e_ref e - 1 else e_ref e)) in
          s <- (if Nat.eqb n 0 then final_assign s c CZero else Ok s) ;;
          e <- rd (s_edges s) i ;;
          if (e_ref e =? 0)%Z then release s i else Ok s
      end.
    Definition check_edge (s : st) (i : nat) : res st :=
      r <- get s i ;;
      let e := fst r in
      let c := snd r in
      if e_handled e then Ok s
      else if done (asg_of s c) then (if (e_ref e =? 0)%Z then release s i else Ok s)
      else
        let q := scan s (e_tgts e) None in
        let allOne := snd (fst (fst q)) in
        let hasCZero := snd (fst q) in
        let s := set_edge s i (mkEdge (e_src e) (fst (fst (fst q))) (e_neg e) (e_status e) (e_processed e) (e_handled e) (e_ref e)) in
        s <- (if e_neg e then
                if allOne then handle s i
                else if hasCZero then final_assign s c One
                else match snd q with
                     | None => UB
                     | Some t =>
                       if only_assign then Ok s
                       else if asg_eq (asg_of s t) Zero && e_processed e then final_assign s c One
                       else
                         s <- (if e_processed e then Ok s else push_negation s i) ;;
                         s <- add_dependency s t i ;;
                         if asg_eq (asg_of s t) Unknown then explore s t else Ok s
                     end
              else
                if allOne then final_assign s c One
                else if hasCZero then handle s i
                else match snd q with
                     | None => Ok s
                     | Some t =>
                       if only_assign then Ok s
                       else
                         s <- (if negb (e_processed e) && negb (done (asg_of s t))
                               then each (fun s t => add_dependency s t i) (fst (fst (fst q))) s
                               else Ok s) ;;
                         if asg_eq (asg_of s t) Unknown then explore s t else Ok s
                     end) ;;
        e <- rd (s_edges s) i ;;
        let s := if (0 <? e_ref e)%Z && negb only_assign
                 then set_edge s i (mkEdge (e_src e) (e_tgts e) (e_neg e) (e_status e) true (e_handled e) (e_ref e))
                 else s in
        if (e_ref e =? 0)%Z then release s i else Ok s.
  End Check.

  (** CertainZeroFPA.cpp:210-267, explore. *)
  Definition check_only (s : st) (i : nat) : res st := check_edge true (fun s _ => Ok s) s i.
  (** drop the references of successors that are still held *)
  Fixpoint drop_all (s : st) (l : list nat) : res st :=
    match l with
    | [] => Ok s
    | i :: l =>
      e <- rd (s_edges s) i ;;
      s <- (if (1 <=? e_ref e)%Z then drop s i else if (e_ref e =? 0)%Z then release s i else Ok s) ;;
      drop_all s l
    end.
  (** the loop over the new edges, from the last to the first ([l] is reversed) *)
  Fixpoint try_all (s : st) (c : conf) (l : list nat) : res st :=
    match l with
    | [] => Ok s
    | i :: l =>
      s <- check_only s i ;;
      if done (asg_of s c) then Ok s else try_all s c l
    end.
  Fixpoint push_all (s : st) (l : list nat) : res st :=
    match l with
    | [] => Ok s
    | i :: l =>
      e <- rd (s_edges s) i ;;
      s <- (if (0 <? e_ref e)%Z then s <- push_edge s i ;; drop s i
            else if (e_ref e =? 0)%Z then release s i else Ok s) ;;
      push_all s l
    end.
  Definition explore (s : st) (c : conf) : res st :=
    let v := s_cfg s c in
    r <- new_edges s c (g c) ;;
    let s := set_cfg (fst r) c (mkCfg Zero (length (g c)) (c_dist v) (c_deps v)) in
    s <- try_all s c (rev (snd r)) ;;
    if done (asg_of s c) then drop_all s (snd r)
    else if Nat.eqb (c_nsuccs (s_cfg s c)) 0 then s <- drop_all s (snd r) ;; final_assign s c CZero
    else push_all s (snd r).
  Definition check_full (s : st) (i : nat) : res st := check_edge false explore s i.

  (** CertainZeroFPA.cpp:9-44, search.  [choice n] is the choice of the strategy when [n]
      rounds are left; [cnt] is the counter of processed edges. *)
  Variable init : conf.
  Variable choice : nat -> nat.
  Definition process (s : st) (i : nat) : res st :=
    r <- get s i ;;
    let s := set_edge s i (set_ref (fst r) (e_ref (fst r) + 1)) in
    s <- check_full s i ;;
    e <- rd (s_edges s) i ;;
    let s := if (0 <? e_ref e)%Z then set_edge s i (set_ref e (e_ref e - 1)) else s in
    e <- rd (s_edges s) i ;;
    if (e_ref e =? 0)%Z then release s i else Ok s.
  Definition empty (s : st) : bool :=
    match s_W s, s_N s, s_D s with [], [], [] => true | _, _, _ => false end.
  Fixpoint loop (fuel : nat) (s : st) (cnt : nat) : res bool :=
    match fuel with
    | O => NoFuel
    | S fuel =>
      p <- pop s (choice fuel) ;;
      match p with
      | Some (i, s) =>
        s <- process s i ;;
        s <- (if Nat.eqb (S cnt mod 1000) 0 then trivial_negation s else Ok s) ;;
        if done (asg_of s init) then Ok (asg_eq (asg_of s init) One) else loop fuel s (S cnt)
      | None =>
        if done (asg_of s init) then Ok (asg_eq (asg_of s init) One)
        else
          s <- trivial_negation s ;;
          p <- (match s_D s with
                | [] => s <- release_negation_edges s ;; Ok (s, 0)
                | _ => Ok (s, cnt)
                end) ;;
          if empty (fst p) then Ok (asg_eq (asg_of (fst p) init) One) else loop fuel (fst p) (snd p)
      end
    end.
  Definition search (fuel : nat) : res bool :=
    s <- explore st_init init ;; loop fuel s 0.
End Dg.
