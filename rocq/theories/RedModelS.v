(** Model of structural reduction rules S and T (Reducer.cpp:2556-2838): each consumer of a place is
    fused with the producers of the place, and removed.  The conventions are those of RedModel.v
    and RedModelR.v; a call is modelled for one place (one iteration of the outermost loop).  The
    rule does nothing when the trace is reconstructed (2557-2558).  Rule T is what happens when
    [all_reach] or [remove_loops] is false. *)
From Verif Require Import Base NetSpec NetModel BuilderModel RedModel RedModelR.
Set Implicit Arguments.

Section RuleS.
(** placeInQuery *)
Variable inq : nat -> bool.
Variables remove_loops all_reach : bool.
(** Whether the vector of transitions moves in memory when it grows beyond that length: references
    into it are then invalid. *)
Variable moves : nat -> bool.
(** Reducer.cpp:2560 *)
Definition atomic : bool := all_reach && remove_loops.

(** Reducer.cpp:2612-2628: one producer puts [kw] tokens; the flags todo and kIsAlwaysOne of the
    consumers.  [None]: the place is given up. *)
Fixpoint s_flags (b : builder) (p : nat) (kw : N) (cs : list nat) (fl : list (bool * bool)) : res (option (list (bool * bool))) :=
  match cs, fl with
  | c :: cs', (todo, one) :: fl' =>
    a <- some (in_arc b p c) ;;
    let w := arc_weight a in
    if atomic then
      if negb (init_at b p <? w)%N then
        r <- s_flags b p kw cs' fl' ;; Ok (option_map (cons (false, one)) r)
      else if (w =? 0)%N then UB
      else if negb (kw mod w =? 0)%N then r <- s_flags b p kw cs' fl' ;; Ok (option_map (cons (false, one)) r)
      else r <- s_flags b p kw cs' fl' ;; Ok (option_map (cons (todo, one && (kw =? w)%N)) r)
    else if negb (init_at b p <? w)%N || negb (kw =? w)%N then Ok None
    else r <- s_flags b p kw cs' fl' ;; Ok (option_map (cons (todo, one)) r)
  | _, _ => Ok (Some [])
  end.
(** std::lower_bound(todo.begin(), todo.end(), true) == todo.end() (Reducer.cpp:2633), as the
    library computes it; the vector need not be sorted. *)
Fixpoint lower_bound (fuel : nat) (l : list bool) (first len : nat) : nat :=
  match fuel with
  | 0 => first
  | S fuel' =>
    match len with
    | 0 => first
    | _ => let half := Nat.div len 2 in
           if nth (first + half) l false then lower_bound fuel' l first half
           else lower_bound fuel' l (S (first + half)) (len - half - 1)
    end
  end.
Definition none_found (l : list bool) : bool := Nat.eqb (lower_bound (S (length l)) l 0 (length l)) (length l).
(** The walk over two sorted vectors (Reducer.cpp:2650-2667): everything in the first is in the
    second. *)
Fixpoint contained (l1 : list nat) : list nat -> bool :=
  fix walk (l2 : list nat) : bool :=
  match l1, l2 with
  | x :: l1', y :: l2' => if y <? x then walk l2' else if Nat.eqb x y then contained l1' l2' else false
  | [], _ => true
  | _, [] => false
  end.
(** Reducer.cpp:2603-2672: the checks, for the producers in turn. *)
Fixpoint s_checks (b : builder) (p : nat) (us : list nat) (fl : list (bool * bool)) : res (option (list (bool * bool))) :=
  match us with
  | [] => Ok (Some fl)
  | u :: us' =>
    let x := tr_of b u in
    if bt_inhib x || negb (Nat.eqb (length (bt_post x)) 1) then Ok None else
    o <- some (out_arc b u p) ;;
    r <- s_flags b p (arc_weight o) (bp_cons (pl_of b p)) fl ;;
    match r with
    | None => Ok None
    | Some fl' =>
      if negb (forallb fst fl') && none_found (map fst fl') then Ok None else
      if existsb (fun a => bp_inhib (pl_of b (arc_place a)) || inq (arc_place a) ||
                           (negb atomic && negb (contained (bp_cons (pl_of b (arc_place a))) (bp_prod (pl_of b p))))) (bt_pre x) then Ok None
      else s_checks b p us' fl'
    end
  end.

(** Reducer.cpp:2735-2739 *)
Fixpoint scale (k : N) (l : list arc) : res (list arc) :=
  match l with
  | [] => Ok []
  | a :: l' => w <- u32 (arc_weight a * k) ;; r <- scale k l' ;; Ok (mkArc (arc_place a) w (arc_inhib a) :: r)
  end.
(** Reducer.cpp:2712-2767 (rule S) and 2768-2813 (rule T, with [ki] and [k] 1): a new transition
    with the effect of the producer [u] and then [ki] times the consumer [c], which leaves
    [(k - ki) * w] tokens.  The boolean tells whether the vector of transitions has moved. *)
Definition s_new (p u c : nat) (k w : N) (s : builder * list nat * bool) (ki : N) : res (builder * list nat * bool) :=
  let '(b, sk, moved) := s in
  let '(b0, id, sk') := new_slot b sk in
  let moved' := moved || (match sk with [] => moves (length (b_trans b)) | _ => false end) in
  let old := tr_of b0 id in
  let prod := tr_of b0 u in
  let cons := tr_of b0 c in
  let rest := filter (fun a => negb (Nat.eqb (arc_place a) p)) (bt_pre cons) in
  posts <- scale ki (bt_post cons) ;;
  post1 <- fold_res add_arc posts (bt_post old) ;;
  pre1 <- fold_res add_arc rest (bt_pre old) ;;
  pre <- fold_res add_arc (bt_pre prod) pre1 ;;
  post <- (if (ki =? k)%N then Ok post1
           else match bt_post prod with
                | a :: _ => v <- u32 ((k - ki) * w) ;; add_arc post1 (mkArc (arc_place a) v (arc_inhib a))
                | [] => UB
                end) ;;
  Ok (link b0 id (mkBT pre post (bt_player old) false (existsb arc_inhib rest)), sk', moved').
(** Reducer.cpp:2700-2815, one producer.  The weight of the consumer is read through a reference
    taken before the loop over the producers (2683, 2707). *)
Definition s_producer (p c : nat) (one : bool) (s : builder * list nat * bool) (u : nat) : res (builder * list nat * bool) :=
  let '(b, sk, moved) := s in
  if atomic && negb one then
    if moved then UB else
    a <- some (in_arc b p c) ;;
    o <- some (out_arc b u p) ;;
    if (arc_weight a =? 0)%N then UB else
    let w := arc_weight a in
    let k := (arc_weight o / w)%N in
    fold_res (s_new p u c k w) (map N.of_nat (seq 1 (N.to_nat k))) (b, sk, false)
  else s_new p u c 1 1 (b, sk, moved) 1.
(** Reducer.cpp:2677-2820, one consumer with its flags. *)
Definition s_consumer (p : nat) (us : list nat) (s : builder * list nat) (x : nat * (bool * bool)) : res (builder * list nat) :=
  let '(b, sk) := s in
  let '(c, (todo, one)) := x in
  if negb todo then Ok s else
  if atomic && negb one &&
     (negb (Nat.eqb (length (bt_pre (tr_of b c))) 1) ||
      existsb (fun a => bp_inhib (pl_of b (arc_place a)) || (negb remove_loops && inq (arc_place a))) (bt_post (tr_of b c))) then Ok s else
  r <- fold_res (s_producer p c one) us (b, sk, false) ;;
  let '(b1, sk1, _) := r in
  skip_push (b1, sk1) c.
(** Reducer.cpp:2562-2834, one place. *)
Definition rule_s (b : builder) (sk : list nat) (p : nat) : res (builder * list nat) :=
  let pl := pl_of b p in
  if bp_skip pl || bp_inhib pl || inq p then Ok (b, sk) else
  match bp_prod pl, bp_cons pl with
  | [], _ | _, [] => Ok (b, sk)
  | us, cs =>
    if negb (disjoint us cs) then Ok (b, sk) else
    r <- s_checks b p us (map (fun _ => (true, true)) cs) ;;
    match r with
    | None => Ok (b, sk)
    | Some fl =>
      s <- fold_res (s_consumer p us) (combine cs fl) (b, sk) ;;
      let '(b1, sk1) := s in
      match bp_cons (pl_of b1 p) with
      | [] =>
        s2 <- fold_res skip_push (bp_prod (pl_of b1 p)) (b1, sk1) ;;
        let '(b2, sk2) := s2 in
        b3 <- skip_place b2 p ;;
        Ok (b3, sk2)
      | _ => Ok (b1, sk1)
      end
    end
  end.
End RuleS.
