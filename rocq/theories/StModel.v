(** Model of src/PetriEngine/STSolver.cpp, the siphon-trap test for deadlock freedom. *)
From Verif Require Import Base NetSpec NetModel StubModel AntiModel.
Set Implicit Arguments.

(** The antichain and the number of times that the clock or std::rand were asked. *)
Record st := mkSt { st_chain : chains; st_clock : nat }.
Section Solver.
  Variable net : cnet.
  (** std::rand and timeout(): arbitrary answers, one after the other *)
  Variable rnd : nat -> nat.
  Variable late : nat -> bool.

  (** A std::set of transitions by its membership. *)
  Definition tset := nat -> bool.
  Definition no_trans : tset := fun _ => false.
  (** STSolver.cpp:147-151 and 227-274, extend with the arrays of constructPrePost: the
      transitions that produce to the place and those that consume from it. *)
  Definition at_place (p : nat) (l : list invariant) : bool := existsb (fun iv => Nat.eqb (iv_place iv) p) l.
  Definition extend (p : nat) (s : tset * tset) : tset * tset :=
    (fun t => fst s t || at_place p (out_slice net t), fun t => snd s t || at_place p (in_slice net t)).
  Definition extend_all (l : list nat) : tset * tset := fold_left (fun s p => extend p s) l (no_trans, no_trans).
  (** std::set_difference into _diff, in the order of the transitions *)
  Definition difference (a b : tset) : list nat := filter (fun t => a t && negb (b t)) (seq 0 (cn_ntrans net)).
  Definition marked (p : nat) : bool := negb (tokens (cn_init net) p =? 0)%N.

  (** The elements of a sorted vector below [p], and the rest: where the iterator stops. *)
  Fixpoint span (p : nat) (l : list nat) : list nat * list nat :=
    match l with
    | [] => ([], [])
    | x :: l' => if x <? p then let (a, b) := span p l' in (x :: a, b) else ([], l)
    end.
  (** STSolver.cpp:102-123, the places of one transition of the difference leave the trap; the
      last component says that no marked place is left (return 0). *)
  Fixpoint cut (arcs : list invariant) (rest : list nat) (count : nat) : res (list nat * nat * bool) :=
    match arcs with
    | [] => Ok (rest, count, false)
    | a :: arcs' =>
      let (small, big) := span (iv_place a) rest in
      match big with
      | [] => Ok (rest, count, false)
      | x :: big' =>
        if Nat.eqb x (iv_place a) then
          if marked x then
            match count with
            | 0 => UB
            | 1 => Ok (small ++ big', 0, true)
            | S c => r <- cut arcs' big' c ;; Ok (small ++ fst (fst r), snd (fst r), snd r)
            end
          else r <- cut arcs' big' count ;; Ok (small ++ fst (fst r), snd (fst r), snd r)
        else r <- cut arcs' big count ;; Ok (small ++ fst (fst r), snd (fst r), snd r)
      end
    end.
  Fixpoint cut_all (diff : list nat) (trap : list nat) (count : nat) : res (list nat * nat * bool) :=
    match diff with
    | [] => Ok (trap, count, false)
    | t :: diff' =>
      r <- cut (in_slice net t) trap count ;;
      if snd r then Ok r else cut_all diff' (fst (fst r)) (snd (fst r))
    end.
  Fixpoint without_nth (i : nat) (l : list nat) : list nat :=
    match l, i with [], _ => [] | _ :: l', O => l' | x :: l', S j => x :: without_nth j l' end.
  (** STSolver.cpp:69-145, computeTrap: the number of marked places of the greatest trap; on the
      way, traps are stored in the antichain. *)
  Fixpoint compute_trap (fuel : nat) (trap : list nat) (pp : tset * tset) (count : nat) (s : st) : res (nat * st) :=
    match fuel with
    | O => NoFuel
    | S f =>
      match trap with
      | [] => Ok (0, s)
      | _ :: _ =>
        match difference (snd pp) (fst pp) with
        | [] =>
          if 0 <? count then
            let i := Nat.modulo (rnd (st_clock s)) (length trap) in
            let s1 := mkSt (fst (insert (st_chain s) 0 trap)) (S (st_clock s)) in
            let m := marked (nth i trap 0) in
            if negb m || (1 <? count) then
              let trap' := without_nth i trap in
              r <- compute_trap f trap' (extend_all trap') (count - (if m then 1 else 0)) s1 ;;
              Ok (count, snd r)
            else Ok (count, s1)
          else Ok (count, s)
        | _ :: _ =>
          r <- cut_all (difference (snd pp) (fst pp)) trap count ;;
          if snd r then Ok (0, s) else
          let trap' := fst (fst r) in
          let count' := snd (fst r) in
          if Nat.eqb (length trap') 0 || Nat.eqb count' 0
          then if Nat.eqb count' 0 then Ok (0, s) else UB
          else compute_trap f trap' (extend_all trap') count' s
        end
      end
    end.

  (** STSolver.cpp:182-205, the loop over the input places of the first transition of the
      difference; [before] and [after] are the siphon left and right of the iterator. *)
  Fixpoint grow (rec : list nat -> tset * tset -> st -> res (bool * st)) (has_st : nat -> bool) (pp : tset * tset)
           (arcs : list invariant) (before after : list nat) (s : st) : res (bool * st) :=
    match arcs with
    | [] => Ok (true, s)
    | a :: arcs' =>
      let (x, y) := span (iv_place a) after in
      let before' := before ++ x in
      if (match y with [] => false | z :: _ => Nat.eqb z (iv_place a) end) || has_st (iv_place a)
      then grow rec has_st pp arcs' before' y s
      else
        r <- rec (before' ++ iv_place a :: y) (extend (iv_place a) pp) s ;;
        if fst r then grow rec has_st pp arcs' before' y (snd r) else Ok (false, snd r)
    end.
  (** STSolver.cpp:153-210, siphonTrap. *)
  Fixpoint siphon_trap (fuel : nat) (has_st : nat -> bool) (siphon : list nat) (pp : tset * tset) (s : st) : res (bool * st) :=
    match fuel with
    | O => NoFuel
    | S f =>
      let s1 := mkSt (st_chain s) (S (st_clock s)) in
      if late (st_clock s) then Ok (false, s1) else
      if subsumed (st_chain s1) 0 siphon then Ok (true, s1) else
      match difference (fst pp) (snd pp) with
      | [] =>
        let count := length (filter marked siphon) in
        if Nat.eqb count 0 then Ok (false, s1) else
        r <- compute_trap (S (length siphon)) siphon pp count s1 ;;
        Ok (negb (Nat.eqb (fst r) 0), snd r)
      | t :: _ =>
        r <- grow (siphon_trap f has_st) has_st pp (in_slice net t) [] siphon s1 ;;
        if fst r then Ok (true, mkSt (fst (insert (st_chain (snd r)) 0 siphon)) (st_clock (snd r))) else Ok r
      end
    end.

  (** STSolver.cpp:29-47, the class of nets that is accepted. *)
  Definition accepted (t : nat) : bool :=
    match in_slice net t with [] => false | _ => true end &&
    forallb (fun iv => negb (iv_inhib iv) && (iv_tokens iv =? 1)%N) (in_slice net t) && forallb (fun iv => iv_tokens iv =? 1)%N (out_slice net t).
  (** STSolver.cpp:49-64, the loop over the places. *)
  Fixpoint solve_places (n p : nat) (has_st : nat -> bool) (s : st) : res bool :=
    match n with
    | O => Ok true
    | S n' =>
      r <- siphon_trap (S (cn_places net)) has_st [p] (extend p (no_trans, no_trans)) s ;;
      if fst r then solve_places n' (S p) (fun q => Nat.eqb q p || has_st q) (snd r) else Ok false
    end.
  (** STSolver.cpp:22-67, solve. *)
  Definition solve : res bool :=
    if Nat.eqb (cn_places net) 0 then Ok false else
    if negb (forallb accepted (seq 0 (cn_ntrans net))) then Ok false else
    solve_places (cn_places net) 0 (fun _ => false) (mkSt [] 0).
End Solver.
