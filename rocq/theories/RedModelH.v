(** Model of structural reduction rule H (Reducer.cpp:1316-1548): the places of a loop of simple
    transitions are merged.  The conventions are those of RedModel.v; a call is modelled for one
    start transition (one iteration of the outermost loop, 1484-1546).  The rule does nothing
    when the trace is reconstructed (1318-1319). *)
From Verif Require Import Base NetSpec NetModel BuilderModel RedModel.
Set Implicit Arguments.

Section RuleH.
(** placeInQuery *)
Variable inq : nat -> bool.
(** [all_ltl]: when it is false, transitions that touch the query are left alone. *)
Variable all_ltl : bool.

(** Reducer.cpp:1320-1351, transok without the flags: one input place, one other output place,
    weights 1 and no inhibitor arcs. *)
Definition simple_tr (b : builder) (t : nat) : bool :=
  let tr := tr_of b t in
  negb (bt_inhib tr) &&
  match bt_pre tr, bt_post tr with
  | [a], [o] => (arc_weight a =? 1)%N && (arc_weight o =? 1)%N && negb (Nat.eqb (arc_place a) (arc_place o)) &&
                negb (bp_inhib (pl_of b (arc_place a))) && negb (bp_inhib (pl_of b (arc_place o)))
  | _, _ => false
  end.

(** Reducer.cpp:1380-1411: a transition at one of the places has an arc to the query. *)
Definition h_touches (b : builder) (p1 p2 : nat) : bool :=
  existsb (fun p => existsb (fun t => existsb (fun a => inq (arc_place a)) (bt_pre (tr_of b t) ++ bt_post (tr_of b t)))
                            (bp_prod (pl_of b p) ++ bp_cons (pl_of b p))) [p1; p2].
(** Reducer.cpp:1420-1441.  The arc moved is not an inhibitor arc: the places have none. *)
Definition h_in (p1 p2 : nat) (b : builder) (t : nat) : res builder :=
  a <- some (in_arc b p2 t) ;; add_in b p1 t (arc_weight a).
(** Reducer.cpp:1444-1464. *)
Definition h_out (p1 p2 : nat) (b : builder) (t : nat) : res builder :=
  a <- some (out_arc b t p2) ;; add_out b t p1 (arc_weight a).
(** Reducer.cpp:1413-1469: place [p2] is merged into [p1], the transition between them removed. *)
Definition h_merge (b : builder) (prev p1 p2 : nat) : res builder :=
  b1 <- skip_transition b prev ;;
  b2 <- fold_res (h_in p1 p2) (bp_cons (pl_of b1 p2)) b1 ;;
  b3 <- fold_res (h_out p1 p2) (bp_prod (pl_of b2 p2)) b2 ;;
  b4 <- add_init b3 p1 (init_at b3 p2) ;;
  skip_place b4 p2.
(** Reducer.cpp:1366-1471, the loop over j: [prev] is loop[j-1], the list starts at loop[j]. *)
Fixpoint h_remove (b : builder) (p1 prev : nat) (rest : list nat) (removed : bool) : res (builder * bool) :=
  match rest with
  | [] => Ok (b, removed)
  | t :: rest' =>
    match bt_pre (tr_of b t) with
    | [] => UB
    | a :: _ =>
      let p2 := arc_place a in
      if inq p2 || inq p1 then h_remove b p2 t rest' removed
      else if Nat.eqb p1 p2 then h_remove b p1 t rest' removed
      else if negb all_ltl && h_touches b p1 p2 then h_remove b p2 t rest' removed
      else b' <- h_merge b prev p1 p2 ;; h_remove b' p1 t rest' true
    end
  end.
(** Reducer.cpp:1353-1364: the part of the stack from the first occurrence of [t] on. *)
Fixpoint from_first (t : nat) (l : list nat) : list nat :=
  match l with
  | [] => []
  | x :: l' => if Nat.eqb x t then l else from_first t l'
  end.
(** removeLoop on the stack (top first) with [t] pushed. *)
Definition h_loop (b : builder) (t : nat) (stack : list nat) : res (builder * bool) :=
  match from_first t (rev stack) with
  | [] => Ok (b, false)
  | first :: rest =>
    match bt_pre (tr_of b first) with
    | [] => UB
    | a :: _ => h_remove b (arc_place a) first rest false
    end
  end.

(** Reducer.cpp:1504-1538, the loop over the consumers of the output place of the top. *)
Inductive h_scanned := HMerged (b : builder) | HPush (t : nat) (fl : list nat) | HDone (fl : list nat).
Fixpoint h_scan (b : builder) (it : nat) (stack : list nat) (fl : list nat) (l : list nat) : res h_scanned :=
  match l with
  | [] => Ok (HDone fl)
  | nt :: l' =>
    if Nat.eqb nt it || bt_skip (tr_of b nt) then h_scan b it stack fl l'
    else if Nat.eqb (nth nt fl 0) 1 && (1 <? length stack) then
      r <- h_loop b nt stack ;;
      let '(b', removed) := r in
      if (removed : bool) then Ok (HMerged b') else h_scan b' it stack fl l'
    else if Nat.eqb (nth nt fl 0) 0 then
      if simple_tr b nt then Ok (HPush nt (upd fl nt 1)) else h_scan b it stack (upd fl nt 2) l'
    else h_scan b it stack fl l'
  end.
(** Reducer.cpp:1496-1545, the depth-first search; the flags are 0 (new), 1 (on the stack) and 2. *)
Fixpoint h_search (fuel : nat) (b : builder) (stack : list nat) (fl : list nat) : res builder :=
  match fuel with
  | 0 => NoFuel
  | S fuel' =>
    match stack with
    | [] => Ok b
    | it :: below =>
      match bt_post (tr_of b it) with
      | [] => UB
      | o :: _ =>
        r <- h_scan b it stack fl (bp_cons (pl_of b (arc_place o))) ;;
        match r with
        | HMerged b' => Ok b'
        | HPush t fl' => h_search fuel' b (t :: stack) fl'
        | HDone fl' => h_search fuel' b below (upd fl' it 2)
        end
      end
    end
  end.
(** Reducer.cpp:1484-1546 for one start transition. *)
Definition rule_h (b : builder) (t : nat) : res builder :=
  if bt_skip (tr_of b t) then Ok b else
  if negb (simple_tr b t) then Ok b else
  let n := length (b_trans b) in
  h_search (S (2 * n)) b [t] (upd (repeat 0 n) t 1).
End RuleH.
