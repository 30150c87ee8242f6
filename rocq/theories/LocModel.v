(** Model of the local fixed-point algorithm on dependency graphs, the alternative to the
    certain-zero algorithm; the graph, the edges and the search strategy are those of
    DgModel.v. *)
From Verif Require Import Base DgSpec DgModel.
Set Implicit Arguments.

Section Local.
  Variable conf : Type.
  Variable ceq : forall a b : conf, {a = b} + {a <> b}.
  Variable g : graph conf.
  Variable addr : nat -> nat.

  (** src/CTL/Algorithm/LocalFPA.cpp:91-107, explore, with its assertion. *)
  Definition explore_push (s : st conf) (i : nat) : res (st conf) :=
    s <- push_edge s i ;; drop s i.
  Definition explore_local (s : st conf) (c : conf) : res (st conf) :=
    let v := s_cfg s c in
    if negb (asg_eq (c_asg v) Unknown) then UB else
    r <- new_edges s c (g c) ;;
    each explore_push (snd r) (set_cfg ceq (fst r) c (mkCfg Zero (c_nsuccs v) (c_dist v) (c_deps v))).
  (** LocalFPA.cpp:71-89, finalAssign(c, ONE); as in DgModel.v the dependency set is read
      before the loop. *)
  Definition assign_dep (s : st conf) (i : nat) : res (st conf) :=
    r <- get s i ;;
    s <- (if e_neg (fst r) then push_negation s i else push_dependency s i) ;;
    drop s i.
  Definition assign_one (s : st conf) (c : conf) : res (st conf) :=
    let v := s_cfg s c in
    each assign_dep (c_deps v) (set_cfg ceq s c (mkCfg One (c_nsuccs v) (c_dist v) [])).
  (** LocalFPA.cpp:24-32: lastUndecided, null if all targets are ONE. *)
  Fixpoint last_undecided (s : st conf) (ts : list conf) (last : option conf) : option conf :=
    match ts with
    | [] => last
    | t :: ts => last_undecided s ts (if asg_eq (asg_of s t) One then last else Some t)
    end.
  (** LocalFPA.cpp:34-61, the work on an edge that has been popped. *)
  Definition work (s : st conf) (i : nat) : res (st conf) :=
    r <- get s i ;;
    let e := fst r in
    let c := snd r in
    s <- (match last_undecided s (e_tgts e) None with
          | None => if e_neg e then Ok s else assign_one s c
          | Some t =>
            if e_neg e then
              if e_processed e then assign_one s c
              else
                s <- add_dependency ceq addr s t i ;;
                s <- (if asg_eq (asg_of s t) Unknown then explore_local s t else Ok s) ;;
                push_negation s i
            else
              s <- add_dependency ceq addr s t i ;;
              (if asg_eq (asg_of s t) Unknown then explore_local s t else Ok s)
          end) ;;
    e <- rd (s_edges s) i ;;
    let e := mkEdge (e_src e) (e_tgts e) (e_neg e) (e_status e) true (e_handled e) (e_ref e) in
    let s := set_edge s i e in
    if (e_ref e =? 0)%Z then release s i else Ok s.
  (** LocalFPA.cpp:63-66. *)
  Definition negations (s : st conf) : res (st conf) :=
    s <- trivial_negation s ;;
    match s_D s with [] => release_negation_edges s | _ => Ok s end.
  (** LocalFPA.cpp:8-69, search: the two nested loops; leaving the inner loop leads to
      [negations] and the test of the outer loop. *)
  Variable init : conf.
  Variable choice : nat -> nat.
  Fixpoint local_loop (fuel : nat) (s : st conf) : res bool :=
    match fuel with
    | O => NoFuel
    | S f =>
      p <- pop s (choice f) ;;
      match (match p with
             | Some (i, s1) => if asg_eq (asg_of s1 init) One then (None, s1) else (Some i, s1)
             | None => (None, s)
             end) with
      | (Some i, s1) => s2 <- work s1 i ;; local_loop f s2
      | (None, s1) =>
        s2 <- negations s1 ;;
        if empty s2 then Ok (asg_eq (asg_of s2 init) One) else local_loop f s2
      end
    end.
  Definition local_search (fuel : nat) : res bool :=
    s <- explore_local (st_init conf) init ;;
    if empty s then Ok (asg_eq (asg_of s init) One) else local_loop fuel s.
End Local.
