(** Model of PetriNetBuilder: the construction calls and makePetriNet.
    Names (interned strings) are represented by numbers; locations are left out. *)
From Verif Require Import Base NetSpec NetModel.
Set Implicit Arguments.

(** include/PetriEngine/NetStructures.h:39-45, struct Transition. *)
Record btrans := mkBT {
  bt_pre : list arc; bt_post : list arc;
  bt_player : Z; bt_skip : bool; bt_inhib : bool }.

(** include/PetriEngine/NetStructures.h:70-75, struct Place. *)
Record bplace := mkBP {
  bp_cons : list nat; bp_prod : list nat; bp_skip : bool; bp_inhib : bool }.

(** include/PetriEngine/PetriNetBuilder.h:146-160.  The maps _placenames and
    _transitionnames send a name to its insertion index; they are represented by
    the list of names in insertion order. *)
Record builder := mkB {
  b_pnames : list nat; b_tnames : list nat;
  b_trans : list btrans; b_places : list bplace; b_init : list N }.

(** Entry of a transition or a place of the builder (_transitions[t], _places[p]). *)
Definition btrans0 : btrans := mkBT [] [] 0 false false.
Definition bplace0 : bplace := mkBP [] [] true false.
Definition tr_of (b : builder) (t : nat) : btrans := nth t (b_trans b) btrans0.
Definition pl_of (b : builder) (p : nat) : bplace := nth p (b_places b) bplace0.

Definition b_empty : builder := mkB [] [] [] [] [].

(** Lookup in a name map. *)
Fixpoint index_of (x : nat) (l : list nat) : option nat :=
  match l with
  | [] => None
  | y :: l' => if Nat.eqb x y then Some 0
               else match index_of x l' with Some i => Some (S i) | None => None end
  end.

(** src/PetriEngine/PetriNetBuilder.cpp:60-74, addPlace. *)
Definition add_place (b : builder) (name : nat) (tok : N) : builder :=
  let '(id, b1) :=
    match index_of name (b_pnames b) with
    | Some i => (i, b)
    | None => (length (b_pnames b),
               mkB (b_pnames b ++ [name]) (b_tnames b) (b_trans b)
                   (b_places b ++ [mkBP [] [] false false]) (b_init b))
    end in
  let init1 := if length (b_init b1) <=? id then b_init b1 ++ [0%N] else b_init b1 in
  mkB (b_pnames b1) (b_tnames b1) (b_trans b1) (b_places b1) (upd init1 id tok).

(** src/PetriEngine/PetriNetBuilder.cpp:82-93, addTransition. *)
Definition add_transition (b : builder) (name : nat) (player : Z) : builder :=
  match index_of name (b_tnames b) with
  | Some _ => b
  | None => mkB (b_pnames b) (b_tnames b ++ [name])
                (b_trans b ++ [mkBT [] [] player false false]) (b_places b) (b_init b)
  end.

(** src/PetriEngine/PetriNetBuilder.cpp:115-128, the loop over existing arcs of
    the same place: [Some (Some l)] merged, [Some None] error, [None] not found. *)
Fixpoint merge_in (l : list arc) (p : nat) (inh : bool) (w : N) : option (option (list arc)) :=
  match l with
  | [] => None
  | a :: l' =>
    if Nat.eqb (arc_place a) p then
      if Bool.eqb inh (arc_inhib a) then
        Some (Some (mkArc p (if inh then N.min (arc_weight a) w else (arc_weight a + w)%N) inh :: l'))
      else Some None
    else match merge_in l' p inh w with
         | Some (Some l'') => Some (Some (a :: l''))
         | r => r
         end
  end.

Definition set_trans (b : builder) (t : nat) (x : btrans) : list btrans := upd (b_trans b) t x.

(** src/PetriEngine/PetriNetBuilder.cpp:102-141, addInputArc. *)
Definition add_input_arc (b0 : builder) (place transition : nat) (inh : bool) (w : N) : res builder :=
  match index_of transition (b_tnames b0) with
  | None => Throw
  | Some t =>
    let b := match index_of place (b_pnames b0) with
             | None => add_place b0 place 0%N
             | Some _ => b0
             end in
    match index_of place (b_pnames b) with
    | None => UB
    | Some p =>
      tr <- rd (b_trans b) t ;;
      match merge_in (bt_pre tr) p inh w with
      | Some (Some l) =>
        Ok (mkB (b_pnames b) (b_tnames b)
              (upd (b_trans b) t (mkBT l (bt_post tr) (bt_player tr) (bt_skip tr) (bt_inhib tr)))
              (b_places b) (b_init b))
      | Some None => Throw
      | None =>
        pl <- rd (b_places b) p ;;
        Ok (mkB (b_pnames b) (b_tnames b)
              (upd (b_trans b) t (mkBT (bt_pre tr ++ [mkArc p w inh]) (bt_post tr) (bt_player tr)
                                       (bt_skip tr) (bt_inhib tr || inh)))
              (upd (b_places b) p (mkBP (bp_cons pl ++ [t]) (bp_prod pl) (bp_skip pl) (bp_inhib pl || inh)))
              (b_init b))
      end
    end
  end.

Fixpoint merge_out (l : list arc) (p : nat) (w : N) : option (list arc) :=
  match l with
  | [] => None
  | a :: l' =>
    if Nat.eqb (arc_place a) p then Some (mkArc p (arc_weight a + w)%N (arc_inhib a) :: l')
    else match merge_out l' p w with Some l'' => Some (a :: l'') | None => None end
  end.

(** src/PetriEngine/PetriNetBuilder.cpp:149-178, addOutputArc. *)
Definition add_output_arc (b0 : builder) (transition place : nat) (w : N) : res builder :=
  match index_of transition (b_tnames b0) with
  | None => Throw
  | Some t =>
    let b := match index_of place (b_pnames b0) with
             | None => add_place b0 place 0%N
             | Some _ => b0
             end in
    match index_of place (b_pnames b) with
    | None => UB
    | Some p =>
      tr <- rd (b_trans b) t ;;
      match merge_out (bt_post tr) p w with
      | Some l =>
        Ok (mkB (b_pnames b) (b_tnames b)
              (upd (b_trans b) t (mkBT (bt_pre tr) l (bt_player tr) (bt_skip tr) (bt_inhib tr)))
              (b_places b) (b_init b))
      | None =>
        pl <- rd (b_places b) p ;;
        Ok (mkB (b_pnames b) (b_tnames b)
              (upd (b_trans b) t (mkBT (bt_pre tr) (bt_post tr ++ [mkArc p w false]) (bt_player tr)
                                       (bt_skip tr) (bt_inhib tr)))
              (upd (b_places b) p (mkBP (bp_cons pl) (bp_prod pl ++ [t]) (bp_skip pl) (bp_inhib pl)))
              (b_init b))
      end
    end
  end.

(** The construction interface as a list of calls. *)
Inductive call :=
| CPlace (name : nat) (tok : N)
| CTrans (name : nat) (player : Z)
| CIn (place transition : nat) (inh : bool) (w : N)
| COut (transition place : nat) (w : N).

Definition do_call (b : builder) (c : call) : res builder :=
  match c with
  | CPlace p k => Ok (add_place b p k)
  | CTrans t pl => Ok (add_transition b t pl)
  | CIn p t i w => add_input_arc b p t i w
  | COut t p w => add_output_arc b t p w
  end.

Fixpoint do_calls (b : builder) (cs : list call) : res builder :=
  match cs with
  | [] => Ok b
  | c :: cs' => b' <- do_call b c ;; do_calls b' cs'
  end.

(** src/PetriEngine/PetriNetBuilder.cpp:180-200, nextPlaceId: the loop from place [i].
    [cand]/[cnt] as in the code, 2^32-1 is [None]. *)
Fixpoint next_place_id_loop (b : builder) (counts pcounts : list nat) (ids : list (option nat))
    (reorder : bool) (i k : nat) (cand : option nat) (cnt : option nat) : option nat :=
  match k with
  | O => cand
  | S k' =>
    let nnum := if Nat.eqb (nth i pcounts 0) 0 then 0
                else if Nat.eqb (nth 0 counts 0) 0 then 0
                else Nat.max (nth i counts 0) (nth i pcounts 0) in
    let free := match nth i ids None with None => true | Some _ => false end in
    let less := match cnt with None => true | Some c => nnum <? c end in
    let skip := match nth_error (b_places b) i with Some pl => bp_skip pl | None => true end in
    if free && less && negb skip then
      if negb reorder then Some i
      else next_place_id_loop b counts pcounts ids reorder (S i) k' (Some i) (Some nnum)
    else next_place_id_loop b counts pcounts ids reorder (S i) k' cand cnt
  end.

Definition next_place_id (b : builder) (counts pcounts : list nat) (ids : list (option nat))
    (reorder : bool) : option nat :=
  next_place_id_loop b counts pcounts ids reorder 0 (length (b_places b)) None None.

(** Local variables of makePetriNet.  The arrays of the net under construction are
    filled from left to right at the indices freeinv, freetrans and free; they are
    represented by the lists of elements written so far.  Their allocated sizes
    (ninv, ntrans, nplaces) are checked at every write. *)
Record mk := mkMk {
  k_invs : list (nat * N * bool);      (* place (old index), tokens, inhibitor *)
  k_trs : list (nat * nat);            (* inputs, outputs *)
  k_ctrl : list bool;
  k_ptrs : list nat;
  k_ids : list (option nat);           (* place_idmap *)
  k_tids : list (option nat);          (* trans_idmap *)
  k_cons : list nat;                   (* place_cons_count *)
  k_prod : list nat }.                 (* place_prod_count *)

Definition dec (l : list nat) (i : nat) : list nat := upd l i (Nat.pred (nth i l 0)).

Definition arc_entry (a : arc) : nat * N * bool := (arc_place a, arc_weight a, arc_inhib a).

(** Emitting the arcs and the entry of transition [t]
    (PetriNetBuilder.cpp:300-331 for orphans, 379-405 for the others). *)
Definition emit (ninv ntrans : nat) (t : nat) (tr : btrans) (ctrl : bool) (dec_prod : bool) (s : mk) : res mk :=
  let invs1 := k_invs s ++ map arc_entry (bt_pre tr) in
  let invs2 := invs1 ++ map (fun a => (arc_place a, arc_weight a, false)) (bt_post tr) in
  if ninv <? length invs2 then UB
  else if ntrans <=? length (k_trs s) then UB
  else
    Ok (mkMk invs2
          (k_trs s ++ [(length (k_invs s), length invs1)])
          (k_ctrl s ++ [ctrl])
          (k_ptrs s) (k_ids s)
          (upd (k_tids s) t (Some (length (k_trs s))))
          (fold_left dec (map arc_place (bt_pre tr)) (k_cons s))
          (if dec_prod then fold_left dec (map arc_place (bt_post tr)) (k_prod s) else k_prod s)).

(** PetriNetBuilder.cpp:293-332: "first handle orphans".  _controllable is not
    assigned for them and keeps its initial value true. *)
Fixpoint orphans (ninv ntrans : nat) (l : list btrans) (t : nat) (s : mk) : res mk :=
  match l with
  | [] => Ok s
  | tr :: l' =>
    if forallb arc_inhib (bt_pre tr) && negb (bt_skip tr) then
      s' <- emit ninv ntrans t tr true false s ;;
      orphans ninv ntrans l' (S t) s'
    else orphans ninv ntrans l' (S t) s
  end.

(** PetriNetBuilder.cpp:353-377: the check loop; [Some all_inhib] if not left by break. *)
Fixpoint check_pre (ninv freeinv free next : nat) (ids : list (option nat)) (l : list arc)
    (cnt : nat) (all_inhib : bool) : option bool :=
  match l with
  | [] => Some all_inhib
  | a :: l' =>
    let ai := all_inhib && arc_inhib a in
    let before := match nth (arc_place a) ids None with
                  | Some j => j <? free
                  | None => false
                  end in
    if (negb (arc_inhib a) && before) || (ninv <=? freeinv + cnt) then None
    else if Nat.eqb (arc_place a) next && arc_inhib a then None
    else check_pre ninv freeinv free next ids l' (S cnt) ai
  end.

(** PetriNetBuilder.cpp:347-407: the loop over the consumers of place [next]. *)
Fixpoint consumers (b : builder) (ninv ntrans free next : nat) (l : list nat) (s : mk) : res mk :=
  match l with
  | [] => Ok s
  | t :: l' =>
    tr <- rd (b_trans b) t ;;
    if bt_skip tr then consumers b ninv ntrans free next l' s
    else
      match check_pre ninv (length (k_invs s)) free next (k_ids s) (bt_pre tr) 0 true with
      | Some false =>
        s' <- emit ninv ntrans t tr (Z.eqb (bt_player tr) 0) true s ;;
        consumers b ninv ntrans free next l' s'
      | _ => consumers b ninv ntrans free next l' s
      end
  end.

Definition set_ids (s : mk) (next free : nat) : mk :=
  mkMk (k_invs s) (k_trs s) (k_ctrl s) (k_ptrs s) (upd (k_ids s) next (Some free)) (k_tids s)
       (k_cons s) (k_prod s).
Definition add_ptr (s : mk) : mk :=
  mkMk (k_invs s) (k_trs s) (k_ctrl s) (k_ptrs s ++ [length (k_trs s)]) (k_ids s) (k_tids s)
       (k_cons s) (k_prod s).

(** PetriNetBuilder.cpp:334-411: the main loop. *)
Fixpoint place_loop (fuel : nat) (b : builder) (reorder : bool) (ninv ntrans : nat)
    (first : bool) (free : nat) (next : option nat) (s : mk) : res mk :=
  match next with
  | None => Ok s
  | Some nx =>
    match fuel with
    | O => NoFuel
    | S f =>
      let s1 := if first then s else add_ptr (set_ids s nx free) in
      pl <- rd (b_places b) nx ;;
      s2 <- consumers b ninv ntrans free nx (bp_cons pl) s1 ;;
      place_loop f b reorder ninv ntrans false (S free)
        (next_place_id b (k_cons s2) (k_prod s2) (k_ids s2) reorder) s2
    end
  end.

Definition count {A} (f : A -> bool) (l : list A) : nat := length (filter f l).

(** net->sort(), PetriNet.cpp:169-178: sorts each slice by place (std::sort; the
    places of a slice are distinct, so the result does not depend on stability). *)
Fixpoint insert_iv (x : nat * N * bool) (l : list (nat * N * bool)) :=
  match l with
  | [] => [x]
  | y :: l' => if fst (fst x) <=? fst (fst y) then x :: l else y :: insert_iv x l'
  end.
Fixpoint sort_iv (l : list (nat * N * bool)) :=
  match l with
  | [] => []
  | x :: l' => insert_iv x (sort_iv l')
  end.

(** PetriNetBuilder.cpp:477-525: direction of an arc of transition with inputs [pre]
    and outputs [post]. *)
Definition find_place (p : nat) (l : list (nat * N * bool)) : option (nat * N * bool) :=
  find (fun x => Nat.eqb (fst (fst x)) p) l.
Definition dir_in (post : list (nat * N * bool)) (x : nat * N * bool) : Z :=
  match find_place (fst (fst x)) post with
  | None => if snd x then 0 else -1
  | Some y => if snd x then 1
              else if (snd (fst x) <? snd (fst y))%N then 1
              else if (snd (fst x) =? snd (fst y))%N then 0 else -1
  end.
Definition dir_out (pre : list (nat * N * bool)) (x : nat * N * bool) : Z :=
  match find_place (fst (fst x)) pre with
  | None => 1
  | Some y => if snd y then 1
              else if (snd (fst y) <? snd (fst x))%N then 1
              else if (snd (fst x) =? snd (fst y))%N then 0 else -1
  end.

Definition to_inv (x : nat * N * bool) (d : Z) : invariant :=
  mkInv (fst (fst x)) (snd (fst x)) (snd x) d.

(** Sorting and directions, transition by transition: [bounds] are the (inputs,
    outputs) pairs followed by the sentinel. *)
Fixpoint finish (invs : list (nat * N * bool)) (trs : list (nat * nat)) (last : nat) : list invariant :=
  match trs with
  | [] => []
  | (i, o) :: trs' =>
    let e := match trs' with (i', _) :: _ => i' | [] => last end in
    let pre := sort_iv (slice invs i o) in
    let post := sort_iv (slice invs o e) in
    map (fun x => to_inv x (dir_in post x)) pre ++
    map (fun x => to_inv x (dir_out pre x)) post ++
    finish invs trs' last
  end.

(** Reindexing a place, PetriNetBuilder.cpp:419-424. *)
Definition reindex (ids : list (option nat)) (x : nat * N * bool) : res (nat * N * bool) :=
  match nth (fst (fst x)) ids None with
  | Some j => Ok (j, snd (fst x), snd x)
  | None => UB
  end.

Fixpoint map_res {A B} (f : A -> res B) (l : list A) : res (list B) :=
  match l with
  | [] => Ok []
  | x :: l' => y <- f x ;; r <- map_res f l' ;; Ok (y :: r)
  end.

(** PetriNetBuilder.cpp:427-434: initial marking under the new indices. *)
Fixpoint place_init (ids : list (option nat)) (init : list N) (acc : list N) : list N :=
  match ids, init with
  | Some j :: ids', v :: init' => place_init ids' init' (upd acc j v)
  | None :: ids', _ :: init' => place_init ids' init' acc
  | _, _ => acc
  end.

(** _placeToPtrs: nplaces+1 entries, the last initialised to ntrans
    (PetriNet.cpp:40-42), entry [free] written with freetrans. *)
Definition final_ptrs (np ntrans : nat) (ws : list nat) : list nat :=
  firstn (S np) (ws ++ repeat 0 (np - length ws) ++ [ntrans]).

(** src/PetriEngine/PetriNetBuilder.cpp:202-529, makePetriNet.  Result: the net and
    the new indices of places and transitions (None: removed). *)
Definition make_net (b : builder) (reorder : bool) : res (cnet * list (option nat) * list (option nat)) :=
  let np := count (fun p => negb (bp_skip p)) (b_places b) in
  let nt := count (fun t => negb (bt_skip t)) (b_trans b) in
  let cons := map (fun p => if bp_skip p then 0 else length (bp_cons p)) (b_places b) in
  let prod := map (fun p => if bp_skip p then 0 else length (bp_prod p)) (b_places b) in
  let ninv := list_sum cons + list_sum prod in
  let s0 := mkMk [] [] [] [] (map (fun _ => None) (b_places b)) (map (fun _ => None) (b_trans b)) cons prod in
  let next := next_place_id b cons prod (k_ids s0) reorder in
  let s1 := add_ptr (match next with Some nx => set_ids s0 nx 0 | None => s0 end) in
  s2 <- orphans ninv nt (b_trans b) 0 s1 ;;
  s3 <- place_loop (S (length (b_places b))) b reorder ninv nt true 0 next s2 ;;
  invs <- map_res (reindex (k_ids s3)) (k_invs s3) ;;
  Ok (mkCnet np nt (k_trs s3 ++ [(ninv, ninv)])
        (finish invs (k_trs s3) ninv)
        (final_ptrs np nt (k_ptrs s3))
        (place_init (k_ids s3) (b_init b) (repeat 0%N np))
        (k_ctrl s3 ++ [true]),
      k_ids s3, k_tids s3).
