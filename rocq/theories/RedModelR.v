(** Model of structural reduction rules R and S (Reducer.cpp:2383-2838): a producer and a
    consumer of a place are fused into new transitions.  The conventions are those of RedModel.v;
    a call is modelled for one place (one iteration of the outermost loop).  Besides the builder
    the model has the vector [_skippedTransitions], whose last element is the head of the list:
    the identifiers of the transitions removed, which are used again.  The rules do nothing when
    the trace is reconstructed (2386-2387, 2557-2558). *)
From Verif Require Import Base NetSpec NetModel BuilderModel RedModel.
Set Implicit Arguments.

(** ** New transitions *)
(** Reducer.cpp:101-112, newTransName: some name that is not used. *)
Definition fresh_name (l : list nat) : nat := S (list_max l).
(** Reducer.cpp:2479-2490, 2715-2726, 2771-2782: the slot for a new transition. *)
Definition new_slot (b : builder) (sk : list nat) : builder * nat * list nat :=
  match sk with
  | id :: sk' => (b, id, sk')
  | [] => (mkB (b_pnames b) (b_tnames b ++ [fresh_name (b_tnames b)]) (b_trans b ++ [btrans0]) (b_places b) (b_init b), length (b_trans b), [])
  end.
(** include/PetriEngine/NetStructures.h:45-64, addPreArc and addPostArc. *)
Definition add_arc (l : list arc) (x : arc) : res (list arc) :=
  match get_arc l (arc_place x) with
  | Some a => w <- u32 (arc_weight a + arc_weight x) ;; if (w =? 0)%N then UB else Ok (set_weight l (arc_place x) w)
  | None => if (arc_weight x =? 0)%N then UB else Ok (put_arc l x)
  end.
(** include/PetriEngine/NetStructures.h:74-86, addConsumer and addProducer. *)
Definition add_id (l : list nat) (x : nat) : list nat := if existsb (Nat.eqb x) l then l else insert_id l x.
Definition add_cons (id : nat) (b : builder) (a : arc) : builder :=
  let pl := pl_of b (arc_place a) in
  set_pl b (arc_place a) (mkBP (add_id (bp_cons pl) id) (bp_prod pl) (bp_skip pl) (bp_inhib pl || arc_inhib a)).
Definition add_prod (id : nat) (b : builder) (a : arc) : builder :=
  let pl := pl_of b (arc_place a) in set_pl b (arc_place a) (with_prod pl (add_id (bp_prod pl) id)).
(** Reducer.cpp:2525-2528, 2761-2766, 2807-2813: the arcs of the new transition are entered at
    the places.  Rule R does not update the inhibitor flag of the place; it is set already,
    because the arc is also an arc of the producer. *)
Definition link (b : builder) (id : nat) (x : btrans) : builder :=
  fold_left (add_prod id) (bt_post x) (fold_left (add_cons id) (bt_pre x) (set_tr b id x)).

(** The walk over two sorted vectors (Reducer.cpp:2405-2418, 2584-2595). *)
Fixpoint disjoint (l1 : list nat) : list nat -> bool :=
  fix walk (l2 : list nat) : bool :=
  match l1, l2 with
  | x :: l1', y :: l2' => if x <? y then disjoint l1' l2 else if y <? x then walk l2' else false
  | _, _ => true
  end.
(** skipTransition also records the identifier (Reducer.cpp:182). *)
Definition skip_push (s : builder * list nat) (t : nat) : res (builder * list nat) :=
  let '(b, sk) := s in b' <- skip_transition b t ;; Ok (b', t :: sk).

Section RuleR.
(** placeInQuery *)
Variable inq : nat -> bool.

(** ** Rule R (Reducer.cpp:2383-2554) *)
(** Reducer.cpp:2423-2450, the consumers of the place; the result is the greatest weight. *)
Fixpoint r_consumers (b : builder) (l : list nat) (mx : N) : option N :=
  match l with
  | [] => Some mx
  | c :: l' =>
    match bt_inhib (tr_of b c), bt_pre (tr_of b c) with
    | false, [a] =>
      if existsb (fun o => inq (arc_place o) || bp_inhib (pl_of b (arc_place o))) (bt_post (tr_of b c)) then None
      else r_consumers b l' (N.max mx (arc_weight a))
    | _, _ => None
    end
  end.
(** Reducer.cpp:2507-2523: the output arcs of the producer without the tokens consumed. *)
Definition left_over (p : nat) (w : N) (l : list arc) : list arc :=
  flat_map (fun a => if Nat.eqb (arc_place a) p
                     then if (w <? arc_weight a)%N then [mkArc p (arc_weight a - w) (arc_inhib a)] else []
                     else [a]) l.
(** Reducer.cpp:2476-2529: a new transition for one consumer; it is pushed to the work list when
    it produces into the place. *)
Definition r_fuse (p : nat) (prod : btrans) (s : builder * list nat * list nat) (c : nat) : res (builder * list nat * list nat) :=
  let '(b, sk, todo) := s in
  let '(b0, id, sk') := new_slot b sk in
  let old := tr_of b0 id in
  let cons := tr_of b0 c in
  w <- match bt_pre cons with a :: _ => Ok (arc_weight a) | [] => UB end ;;
  post1 <- fold_res add_arc (bt_post cons) (bt_post old) ;;
  pre <- fold_res add_arc (bt_pre prod) (bt_pre old) ;;
  post <- fold_res add_arc (left_over p w (bt_post prod)) post1 ;;
  let x := mkBT pre post (bt_player old) false false in
  Ok (link b0 id x, sk',
      if existsb (fun a => Nat.eqb (arc_place a) p && (w <? arc_weight a)%N) (bt_post prod) then id :: todo else todo).
(** Reducer.cpp:2452-2536, the loop over the producers; [todo] has the last element first. *)
Fixpoint r_loop (fuel : nat) (p : nat) (mx : N) (b : builder) (sk todo : list nat) (all : bool) : res (builder * list nat * bool) :=
  match fuel with
  | 0 => NoFuel
  | S fuel' =>
    match todo with
    | [] => Ok (b, sk, all)
    | u :: todo' =>
      let prod := tr_of b u in
      a <- some (get_arc (bt_post prod) p) ;;
      if (arc_weight a <? mx)%N then r_loop fuel' p mx b sk todo' false else
      r <- fold_res (r_fuse p prod) (bp_cons (pl_of b p)) (b, sk, todo') ;;
      let '(b1, sk1, todo1) := r in
      s <- skip_push (b1, sk1) u ;;
      let '(b2, sk2) := s in
      r_loop fuel' p mx b2 sk2 todo1 all
    end
  end.
(** Reducer.cpp:2391-2552 for one place; [limit] is the limit for the number of new transitions. *)
Definition rule_r (fuel limit : nat) (b : builder) (sk : list nat) (p : nat) : res (builder * list nat) :=
  let pl := pl_of b p in
  if bp_skip pl || bp_inhib pl || inq p then Ok (b, sk) else
  match bp_prod pl, bp_cons pl with
  | [], _ | _, [] => Ok (b, sk)
  | _, _ =>
    if Nat.max limit (length sk) <? length (bp_prod pl) * length (bp_cons pl) then Ok (b, sk) else
    if negb (disjoint (bp_prod pl) (bp_cons pl)) then Ok (b, sk) else
    match r_consumers b (bp_cons pl) 0 with
    | None => Ok (b, sk)
    | Some mx =>
      r <- r_loop fuel p mx b sk (rev (bp_prod pl)) true ;;
      let '(b1, sk1, all) := r in
      if (all : bool) && (init_at b1 p =? 0)%N then
        s <- fold_res skip_push (bp_cons (pl_of b1 p)) (b1, sk1) ;;
        let '(b2, sk2) := s in
        b3 <- skip_place b2 p ;;
        Ok (b3, sk2)
      else Ok (b1, sk1)
    end
  end.
End RuleR.
