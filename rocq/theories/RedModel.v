(** Model of the structural reductions (src/PetriEngine/Reducer.cpp) on the builder's net.

    Conventions.  The sorted vectors of the code are lists; [std::lower_bound] followed by a
    test for equality is a linear search that stops at the first element that is not smaller.
    Failed assertions and dereferences of [end()] are [UB].  An addition or multiplication
    that does not fit in 32 bits is [Throw] (the code wraps around; such nets are outside the
    model).  Names, the trace reconstruction tables and the counters of applications are left
    out.  A rule is modelled for one candidate (one iteration of its outermost loop); the
    loops over the candidates and the timer are modelled by the sequences of candidates in
    RedSpec.v. *)
From Verif Require Import Base NetSpec NetModel BuilderModel.
Set Implicit Arguments.

(** ** Sorted vectors *)
(** Reducer.cpp:128-156, getOutArc and getInArc on the vector of arcs. *)
Fixpoint get_arc (l : list arc) (p : nat) : option arc :=
  match l with
  | [] => None
  | a :: l' => if arc_place a <? p then get_arc l' p else if Nat.eqb (arc_place a) p then Some a else None
  end.
(** erase(lower_bound) when it points to the place (Reducer.cpp:196-198, 204-206). *)
Fixpoint del_arc (l : list arc) (p : nat) : list arc :=
  match l with
  | [] => []
  | a :: l' => if arc_place a <? p then a :: del_arc l' p else if Nat.eqb (arc_place a) p then l' else l
  end.
(** insert(lower_bound, arc). *)
Fixpoint put_arc (l : list arc) (x : arc) : list arc :=
  match l with
  | [] => [x]
  | a :: l' => if arc_place a <? arc_place x then a :: put_arc l' x else x :: l
  end.
(** assignment to the weight of the arc found. *)
Fixpoint set_weight (l : list arc) (p : nat) (w : N) : list arc :=
  match l with
  | [] => []
  | a :: l' => if arc_place a <? p then a :: set_weight l' p w
               else if Nat.eqb (arc_place a) p then mkArc (arc_place a) w (arc_inhib a) :: l' else l
  end.
(** Reducer.cpp:158-164, eraseTransition. *)
Fixpoint erase_id (l : list nat) (x : nat) : res (list nat) :=
  match l with
  | [] => UB
  | y :: l' => if y <? x then r <- erase_id l' x ;; Ok (y :: r) else if Nat.eqb y x then Ok l' else UB
  end.
(** insert(lower_bound, id). *)
Fixpoint insert_id (l : list nat) (x : nat) : list nat :=
  match l with
  | [] => [x]
  | y :: l' => if y <? x then y :: insert_id l' x else x :: l
  end.

(** Loops. *)
Fixpoint fold_res {A B} (f : A -> B -> res A) (l : list B) (x : A) : res A :=
  match l with
  | [] => Ok x
  | y :: l' => x' <- f x y ;; fold_res f l' x'
  end.
(** A loop that sets a flag to false and breaks at the first failure. *)
Fixpoint all_res {B} (f : B -> res bool) (l : list B) : res bool :=
  match l with
  | [] => Ok true
  | y :: l' => r <- f y ;; if (r : bool) then all_res f l' else Ok false
  end.
(** A value that must fit in uint32_t. *)
Definition u32 (x : N) : res N := if (x <? 4294967296)%N then Ok x else Throw.
Definition some {A} (x : option A) : res A := match x with Some a => Ok a | None => UB end.

(** ** Access to the builder *)
Definition set_tr (b : builder) (t : nat) (x : btrans) : builder :=
  mkB (b_pnames b) (b_tnames b) (upd (b_trans b) t x) (b_places b) (b_init b).
Definition set_pl (b : builder) (p : nat) (x : bplace) : builder :=
  mkB (b_pnames b) (b_tnames b) (b_trans b) (upd (b_places b) p x) (b_init b).
Definition set_init (b : builder) (p : nat) (v : N) : builder :=
  mkB (b_pnames b) (b_tnames b) (b_trans b) (b_places b) (upd (b_init b) p v).
Definition init_at (b : builder) (p : nat) : N := nth p (b_init b) 0%N.
Definition with_pre (x : btrans) (l : list arc) : btrans := mkBT l (bt_post x) (bt_player x) (bt_skip x) (bt_inhib x).
Definition with_post (x : btrans) (l : list arc) : btrans := mkBT (bt_pre x) l (bt_player x) (bt_skip x) (bt_inhib x).
Definition with_cons (x : bplace) (l : list nat) : bplace := mkBP l (bp_prod x) (bp_skip x) (bp_inhib x).
Definition with_prod (x : bplace) (l : list nat) : bplace := mkBP (bp_cons x) l (bp_skip x) (bp_inhib x).
Definition in_arc (b : builder) (p t : nat) : option arc := get_arc (bt_pre (tr_of b t)) p.
Definition out_arc (b : builder) (t p : nat) : option arc := get_arc (bt_post (tr_of b t)) p.

(** ** The elementary changes *)
(** Reducer.cpp:166-183, skipTransition. *)
Definition rm_prod (t : nat) (b : builder) (a : arc) : res builder :=
  let pl := pl_of b (arc_place a) in
  l <- erase_id (bp_prod pl) t ;; Ok (set_pl b (arc_place a) (with_prod pl l)).
Definition rm_cons (t : nat) (b : builder) (a : arc) : res builder :=
  let pl := pl_of b (arc_place a) in
  l <- erase_id (bp_cons pl) t ;; Ok (set_pl b (arc_place a) (with_cons pl l)).
Definition skip_transition (b : builder) (t : nat) : res builder :=
  let tr := tr_of b t in
  if bt_skip tr then UB else
  b1 <- fold_res (rm_prod t) (bt_post tr) b ;;
  b2 <- fold_res (rm_cons t) (bt_pre tr) b1 ;;
  Ok (set_tr b2 t (mkBT [] [] (bt_player tr) true (bt_inhib tr))).

(** Reducer.cpp:185-211, skipPlace. *)
Definition rm_pre (p : nat) (b : builder) (t : nat) : builder :=
  set_tr b t (with_pre (tr_of b t) (del_arc (bt_pre (tr_of b t)) p)).
Definition rm_post (p : nat) (b : builder) (t : nat) : builder :=
  set_tr b t (with_post (tr_of b t) (del_arc (bt_post (tr_of b t)) p)).
Definition skip_place (b : builder) (p : nat) : res builder :=
  let pl := pl_of b p in
  if bp_skip pl then UB else
  let b1 := fold_left (rm_pre p) (bp_cons pl) b in
  let b2 := fold_left (rm_post p) (bp_prod pl) b1 in
  Ok (set_pl b2 p (mkBP [] [] true (bp_inhib pl))).

(** Reducer.cpp:213-225, skipInArc. *)
Definition skip_in_arc (b : builder) (p t : nat) : res builder :=
  let pl := pl_of b p in
  l <- erase_id (bp_cons pl) t ;;
  let b1 := set_pl b p (with_cons pl l) in
  a <- some (in_arc b p t) ;;
  Ok (rm_pre p b1 t).
(** Reducer.cpp:227-239, skipOutArc. *)
Definition skip_out_arc (b : builder) (t p : nat) : res builder :=
  let pl := pl_of b p in
  l <- erase_id (bp_prod pl) t ;;
  let b1 := set_pl b p (with_prod pl l) in
  a <- some (out_arc b t p) ;;
  Ok (rm_post p b1 t).

(** An output arc added to a transition, or its weight added to the arc that exists
    (Reducer.cpp:387-409, 553-574; also 1447-1464). *)
Definition add_out (b : builder) (t p : nat) (w : N) : res builder :=
  if (w =? 0)%N then UB else
  match out_arc b t p with
  | Some a => w' <- u32 (arc_weight a + w) ;; Ok (set_tr b t (with_post (tr_of b t) (set_weight (bt_post (tr_of b t)) p w')))
  | None =>
    w' <- u32 w ;;
    let b1 := set_tr b t (with_post (tr_of b t) (put_arc (bt_post (tr_of b t)) (mkArc p w' false))) in
    Ok (set_pl b1 p (with_prod (pl_of b1 p) (insert_id (bp_prod (pl_of b1 p)) t)))
  end.
(** The same for an input arc (Reducer.cpp:575-596; also 1420-1441). *)
Definition add_in (b : builder) (p t : nat) (w : N) : res builder :=
  if (w =? 0)%N then UB else
  match in_arc b p t with
  | Some a => w' <- u32 (arc_weight a + w) ;; Ok (set_tr b t (with_pre (tr_of b t) (set_weight (bt_pre (tr_of b t)) p w')))
  | None =>
    w' <- u32 w ;;
    let b1 := set_tr b t (with_pre (tr_of b t) (put_arc (bt_pre (tr_of b t)) (mkArc p w' false))) in
    Ok (set_pl b1 p (with_cons (pl_of b1 p) (insert_id (bp_cons (pl_of b1 p)) t)))
  end.
Definition add_init (b : builder) (p : nat) (v : N) : res builder :=
  v' <- u32 (init_at b p + v) ;; Ok (set_init b p v').

(** A consumption that is always possible is compiled into the joint effect of the transition
    (Reducer.cpp:1191-1201; 2244-2273 does the same, erasing the input arc first). *)
Definition cut_arc (b : builder) (p t : nat) (a : arc) : res builder :=
  o <- some (out_arc b t p) ;;
  b1 <- (if (arc_weight a =? arc_weight o)%N then skip_out_arc b t p
         else if (arc_weight o <? arc_weight a)%N then UB
         else Ok (set_tr b t (with_post (tr_of b t) (set_weight (bt_post (tr_of b t)) p (arc_weight o - arc_weight a))))) ;;
  skip_in_arc b1 p t.

Section Rules.
(** placeInQuery *)
Variable inq : nat -> bool.

(** ** Rule A (Reducer.cpp:303-418): a transition with one input place of its own *)
Definition rule_a (b : builder) (t : nat) : res builder :=
  let tr := tr_of b t in
  if bt_skip tr then Ok b else
  match bt_pre tr with
  | [a0] =>
    let pPre := arc_place a0 in
    let w := arc_weight a0 in
    if negb (length (bp_cons (pl_of b pPre)) =? 1) then Ok b else
    if (w =? 0)%N then UB else
    ok <- all_res (fun u => a <- some (out_arc b u pPre) ;; Ok (arc_weight a mod w =? 0)%N) (bp_prod (pl_of b pPre)) ;;
    if negb ok then Ok b else
    if bp_inhib (pl_of b pPre) || bt_inhib tr then Ok b else
    if inq pPre then Ok b else
    if existsb (fun a => bp_inhib (pl_of b (arc_place a)) || Nat.eqb pPre (arc_place a) || inq (arc_place a)) (bt_post tr) then Ok b else
    let n := (init_at b pPre / w)%N in
    b1 <- fold_res (fun b a => add_init b (arc_place a) (n * arc_weight a)) (bt_post tr) b ;;
    let b2 := set_init b1 pPre 0 in
    b3 <- skip_transition b2 t ;;
    b4 <- fold_res (fun b u =>
            src <- some (out_arc b u pPre) ;;
            fold_res (fun b a => add_out b u (arc_place a) ((arc_weight src / w) * arc_weight a)) (bt_post tr) b)
          (bp_prod (pl_of b3 pPre)) b3 ;;
    skip_place b4 pPre
  | _ => Ok b
  end.

(** ** Rule F (Reducer.cpp:1051-1099): a place that always has enough tokens *)
Definition live_places (b : builder) : nat := count (fun pl => negb (bp_skip pl)) (b_places b).
Definition rule_f (b : builder) (p : nat) : res builder :=
  let pl := pl_of b p in
  if bp_skip pl then Ok b else
  if bp_inhib pl then Ok b else
  if length (bp_prod pl) <? length (bp_cons pl) then Ok b else
  if inq p then Ok b else
  ok <- all_res (fun t =>
          a <- some (in_arc b p t) ;;
          if (init_at b p <? arc_weight a)%N then Ok false else
          match out_arc b t p with
          | None => Ok false
          | Some o => Ok (negb (arc_weight o <? arc_weight a)%N)
          end) (bp_cons pl) ;;
  if negb ok then Ok b else
  if 1 <? live_places b then skip_place b p else Ok b.

(** ** Rules F, N and O (Reducer.cpp:1101-1232) *)
Record fno := mkFno { fn_rm : bool; fn_dis : nat; fn_inh : nat; fn_low : N; fn_neg : list nat }.
(** Reducer.cpp:1131-1167, the first loop over the consumers; [fn_low = 0] stands for the break. *)
Fixpoint fno_scan (b : builder) (p : nat) (l : list nat) (s : fno) : res fno :=
  match l with
  | [] => Ok s
  | t :: l' =>
    a <- some (in_arc b p t) ;;
    if arc_inhib a then fno_scan b p l' (mkFno (fn_rm s) (fn_dis s) (S (fn_inh s)) (fn_low s) (fn_neg s)) else
    match out_arc b t p with
    | Some o =>
      if (arc_weight o <? arc_weight a)%N
      then fno_scan b p l' (mkFno false (Nat.pred (fn_dis s)) (fn_inh s) (N.min (fn_low s) (arc_weight o)) (t :: fn_neg s))
      else fno_scan b p l' s
    | None => Ok (mkFno (fn_rm s) (fn_dis s) (fn_inh s) 0 (fn_neg s))
    end
  end.
(** Reducer.cpp:1176-1210, the second loop: rule N. *)
Fixpoint fno_arcs (p : nat) (low : N) (neg : list nat) (l : list nat) (s : builder * nat * list nat) : res (builder * nat * list nat) :=
  match l with
  | [] => Ok s
  | t :: l' =>
    let '(b, dis, inhibited) := s in
    if existsb (Nat.eqb t) neg then fno_arcs p low neg l' s else
    a <- some (in_arc b p t) ;;
    if (low <? arc_weight a)%N then fno_arcs p low neg l' s else
    if arc_inhib a then fno_arcs p low neg l' (b, dis, inhibited ++ [t]) else
    b2 <- cut_arc b p t a ;;
    fno_arcs p low neg l' (b2, Nat.pred dis, inhibited)
  end.
Definition rule_fno (b : builder) (p : nat) : res builder :=
  let pl := pl_of b p in
  if bp_skip pl then Ok b else
  s <- fno_scan b p (bp_cons pl) (mkFno (negb (inq p)) (length (bp_cons pl)) 0 (init_at b p) []) ;;
  if (match bp_cons pl with [] => false | _ => true end) && (fn_low s =? 0)%N then Ok b else
  r <- fno_arcs p (fn_low s) (fn_neg s) (bp_cons pl) (b, fn_dis s, []) ;;
  let '(b1, dis, inhibited) := r in
  b2 <- fold_res skip_transition inhibited b1 ;;
  let inh := fn_inh s - length inhibited in
  if fn_rm s && Nat.eqb inh 0 && Nat.eqb dis 0 && (1 <? live_places b2) then skip_place b2 p
  else if Nat.eqb inh 0 then Ok (set_pl b2 p (mkBP (bp_cons (pl_of b2 p)) (bp_prod (pl_of b2 p)) (bp_skip (pl_of b2 p)) false))
  else Ok b2.

(** ** Rule G (Reducer.cpp:1234-1314): a transition that only loops or consumes *)
(** Reducer.cpp:1253-1295, the joint walk over the two sorted vectors. *)
Fixpoint g_walk (b : builder) (consumers : bool) (pre : list arc) : list arc -> bool :=
  fix walk (post : list arc) : bool :=
  match pre with
  | [] => match post with [] => true | _ => false end
  | a :: pre' =>
    if arc_inhib a || bp_inhib (pl_of b (arc_place a)) then false else
    match post with
    | o :: post' =>
      if Nat.eqb (arc_place a) (arc_place o) then
        if negb consumers && negb (arc_weight a =? arc_weight o)%N then false else
        if (inq (arc_place a) && negb (arc_weight a =? arc_weight o)%N) || (negb (inq (arc_place a)) && (arc_weight a <? arc_weight o)%N) then false else
        g_walk b consumers pre' post'
      else if arc_place a <? arc_place o then
        if inq (arc_place a) || negb consumers then false else g_walk b consumers pre' post
      else false
    | [] => if inq (arc_place a) || negb consumers then false else g_walk b consumers pre' []
    end
  end.
Definition rule_g (loops consumers : bool) (b : builder) (t : nat) : res builder :=
  if negb loops then Ok b else
  let tr := tr_of b t in
  if bt_skip tr then Ok b else
  if bt_inhib tr then Ok b else
  if length (bt_pre tr) <? length (bt_post tr) then Ok b else
  if negb (g_walk b consumers (bt_pre tr) (bt_post tr)) then Ok b else
  if existsb (fun a => arc_inhib a || bp_inhib (pl_of b (arc_place a))) (bt_pre tr) then Ok b else
  skip_transition b t.

(** ** Rules E and P (Reducer.cpp:946-1032) *)
(** Reducer.cpp:976-1000, the consumers disabled initially and the inhibitor arcs that do not
    inhibit initially; [None]: some enabled consumer adds tokens to the place. *)
Fixpoint ep_scan (b : builder) (p : nat) (l : list nat) (dis inh : list nat) : res (option (list nat * list nat)) :=
  match l with
  | [] => Ok (Some (dis, inh))
  | t :: l' =>
    a <- some (in_arc b p t) ;;
    if negb (arc_inhib a) then
      if (arc_weight a <=? init_at b p)%N then
        match out_arc b t p with
        | Some o => if (arc_weight a <? arc_weight o)%N then Ok None else ep_scan b p l' dis inh
        | None => ep_scan b p l' dis inh
        end
      else ep_scan b p l' (dis ++ [t]) inh
    else if (init_at b p <? arc_weight a)%N then ep_scan b p l' dis (inh ++ [t]) else ep_scan b p l' dis inh
  end.
Definition rule_ep (b : builder) (p : nat) : res builder :=
  let pl := pl_of b p in
  if bp_skip pl then Ok b else
  if length (bp_cons pl) <? length (bp_prod pl) then Ok b else
  if negb (forallb (fun t => match in_arc b p t with Some a => negb (arc_inhib a) | None => false end) (bp_prod pl)) then Ok b else
  r <- ep_scan b p (bp_cons pl) [] [] ;;
  match r with
  | None => Ok b
  | Some ([], []) => Ok b
  | Some (dis, inh) =>
    if Nat.eqb (length dis + length inh) (length (bp_cons pl)) && negb (inq p) then skip_place b p else
    b1 <- fold_res skip_transition dis b ;;
    fold_res (fun b t => skip_in_arc b p t) inh b1
  end.

(** ** Rule J (Reducer.cpp:1550-1608): division of all weights at a place *)
Definition no_mod : N := 4294967295%N.
(** Reducer.cpp:1563-1589, the greatest common divisor; the loops stop at 1. *)
Fixpoint j_gcd (get : nat -> option arc) (l : list nat) (m : N) : res N :=
  match l with
  | [] => Ok m
  | t :: l' =>
    a <- some (get t) ;;
    let m' := if (m =? no_mod)%N then arc_weight a else N.gcd m (arc_weight a) in
    if (m' =? 1)%N then Ok 1%N else j_gcd get l' m'
  end.
Definition j_in (p : nat) (m : N) (b : builder) (t : nat) : res builder :=
  a <- some (in_arc b p t) ;; Ok (set_tr b t (with_pre (tr_of b t) (set_weight (bt_pre (tr_of b t)) p (arc_weight a / m)%N))).
Definition j_out (p : nat) (m : N) (b : builder) (t : nat) : res builder :=
  a <- some (out_arc b t p) ;; Ok (set_tr b t (with_post (tr_of b t) (set_weight (bt_post (tr_of b t)) p (arc_weight a / m)%N))).
Definition rule_j (b : builder) (p : nat) : res builder :=
  if inq p then Ok b else
  let pl := pl_of b p in
  if bp_skip pl then Ok b else
  if match bp_cons pl, bp_prod pl with [], [] => true | _, _ => false end then Ok b else
  m1 <- j_gcd (in_arc b p) (bp_cons pl) no_mod ;;
  if (m1 =? 1)%N then Ok b else
  m2 <- j_gcd (fun t => out_arc b t p) (bp_prod pl) m1 ;;
  if (m2 =? 1)%N then Ok b else
  if (m2 =? 0)%N then UB else
  b1 <- fold_res (j_in p m2) (bp_cons pl) b ;;
  b2 <- fold_res (j_out p m2) (bp_prod pl) b1 ;;
  Ok (set_init b2 p (init_at b2 p / m2)%N).

(** ** Rule L (Reducer.cpp:1765-1886): [t1] dominated by [t2] *)
Definition head_place (l : list arc) : option nat := match l with [] => None | a :: _ => Some (arc_place a) end.
Definition omin (a b : option nat) : option nat :=
  match a, b with None, x => x | x, None => x | Some x, Some y => Some (Nat.min x y) end.
(** the arc at the head of a vector when it is at the place, and the rest *)
Definition take_at (l : list arc) (p : nat) : option arc * list arc :=
  match l with a :: l' => if Nat.eqb (arc_place a) p then (Some a, l') else (None, l) | [] => (None, []) end.
Definition eff (a : option arc) : Z :=
  match a with Some a => if arc_inhib a then 0%Z else Z.of_N (arc_weight a) | None => 0%Z end.
(** Reducer.cpp:1808-1868, the joint walk over the four vectors; the differences of weights are
    taken in size_t, where they are equal exactly when they are equal as integers. *)
Fixpoint l_walk (fuel : nat) (pre2 pre1 post2 post1 : list arc) : res bool :=
  match fuel with
  | O => NoFuel
  | S f =>
    match omin (omin (head_place pre2) (head_place pre1)) (omin (head_place post2) (head_place post1)) with
    | None => Ok true
    | Some p =>
      let '(i, pre2') := take_at pre2 p in
      let '(j, pre1') := take_at pre1 p in
      let '(k, post2') := take_at post2 p in
      let '(l, post1') := take_at post1 p in
      if match i with
         | None => true
         | Some x =>
           match j with
           | None => false
           | Some y => Bool.eqb (arc_inhib x) (arc_inhib y) &&
                       negb ((negb (arc_inhib x) && (arc_weight y <? arc_weight x)%N) || (arc_inhib x && (arc_weight x <? arc_weight y)%N))
           end
         end
      then if (eff l - eff j =? eff k - eff i)%Z then l_walk f pre2' pre1' post2' post1' else Ok false
      else Ok false
    end
  end.
(** one candidate pair, Reducer.cpp:1777-1877 *)
Definition rule_l (b : builder) (t1 t2 : nat) : res builder :=
  let x1 := tr_of b t1 in
  let x2 := tr_of b t2 in
  if bt_skip x1 then Ok b else
  if Nat.eqb t2 t1 then Ok b else
  if bt_skip x2 then Ok b else
  if (length (bt_pre x1) <? length (bt_pre x2)) || (length (bt_post x1) <? length (bt_post x2)) then Ok b else
  ok <- l_walk (S (length (bt_pre x1) + length (bt_pre x2) + length (bt_post x1) + length (bt_post x2)))
               (bt_pre x2) (bt_pre x1) (bt_post x2) (bt_post x1) ;;
  if ok then skip_transition b t1 else Ok b.

(** ** Rule Q (Reducer.cpp:2300-2381): initial firing of a transition *)
(** Reducer.cpp:2322-2364; [None]: not applicable, [Some k] otherwise. *)
Fixpoint q_walk (b : builder) (pre : list arc) : list arc -> N -> option N :=
  fix walk (post : list arc) (k : N) : option N :=
  match pre, post with
  | [], [] => Some k
  | a :: pre', o :: post' =>
    if arc_place a <? arc_place o then
      let n := (init_at b (arc_place a) / arc_weight a)%N in
      if (n =? 0)%N || bp_inhib (pl_of b (arc_place a)) || inq (arc_place a) || negb (length (bp_cons (pl_of b (arc_place a))) =? 1) then None
      else q_walk b pre' post (if (k =? 0)%N then n else N.min k n)
    else if arc_place o <? arc_place a then
      if bp_inhib (pl_of b (arc_place o)) || inq (arc_place o) then None else walk post' k
    else None
  | a :: pre', [] =>
    let n := (init_at b (arc_place a) / arc_weight a)%N in
    if (n =? 0)%N || bp_inhib (pl_of b (arc_place a)) || inq (arc_place a) || negb (length (bp_cons (pl_of b (arc_place a))) =? 1) then None
    else q_walk b pre' [] (if (k =? 0)%N then n else N.min k n)
  | [], o :: post' =>
    if bp_inhib (pl_of b (arc_place o)) || inq (arc_place o) then None else walk post' k
  end.
Definition sub_init (b : builder) (p : nat) (v : N) : res builder :=
  if (init_at b p <? v)%N then UB else Ok (set_init b p (init_at b p - v)).
Definition rule_q (b : builder) (t : nat) : res builder :=
  let tr := tr_of b t in
  if bt_skip tr || bt_inhib tr || match bt_pre tr with [] => true | _ => false end then Ok b else
  match q_walk b (bt_pre tr) (bt_post tr) 0 with
  | None => Ok b
  | Some k =>
    if (k =? 0)%N then Ok b else
    b1 <- fold_res (fun b a => sub_init b (arc_place a) (arc_weight a * k)) (bt_pre tr) b ;;
    fold_res (fun b a => add_init b (arc_place a) (arc_weight a * k)) (bt_post tr) b1
  end.

(** ** Rules E, F, M, N, O and P by a fixed point (Reducer.cpp:2027-2298) *)
(** assignment to one cell of an array *)
Definition fset {A} (f : nat -> A) (p : nat) (v : A) : nat -> A := fun q => if Nat.eqb q p then v else f q.
(** CAN_INC and CAN_DEC of _pflags, _lower, _tflags and the queue *)
Record efm := mkEfm { e_inc : nat -> bool; e_dec : nat -> bool; e_low : nat -> N; e_done : nat -> bool; e_q : list nat }.
(** Reducer.cpp:2061-2071, processIncPlace. *)
Definition process_inc (b : builder) (p : nat) (s : efm) : efm :=
  if e_inc s p then s else
  mkEfm (fset (e_inc s) p true) (e_dec s) (e_low s) (e_done s) (e_q s ++ filter (fun t => negb (e_done s t)) (bp_cons (pl_of b p))).
(** Reducer.cpp:2073-2085, processDecPlace. *)
Definition process_dec (b : builder) (p : nat) (low : N) (s : efm) : efm :=
  let l := fset (e_low s) p (N.min low (e_low s p)) in
  if e_dec s p then mkEfm (e_inc s) (e_dec s) l (e_done s) (e_q s) else
  mkEfm (e_inc s) (fset (e_dec s) p true) l (e_done s) (e_q s ++ filter (fun t => negb (e_done s t)) (bp_cons (pl_of b p))).
(** Reducer.cpp:2087-2123, processEnabled. *)
Fixpoint e_walk (b : builder) (pre : list arc) : list arc -> efm -> efm :=
  fix walk (post : list arc) (s : efm) : efm :=
  match pre, post with
  | [], [] => s
  | a :: pre', [] => e_walk b pre' [] (if arc_inhib a then s else process_dec b (arc_place a) 0 s)
  | [], o :: post' => walk post' (process_inc b (arc_place o) s)
  | a :: pre', o :: post' =>
    if arc_place a <? arc_place o then e_walk b pre' post (if arc_inhib a then s else process_dec b (arc_place a) 0 s)
    else if arc_place o <? arc_place a then walk post' (process_inc b (arc_place o) s)
    else e_walk b pre' post'
           (if arc_inhib a then process_inc b (arc_place o) s
            else if (arc_weight o <? arc_weight a)%N then process_dec b (arc_place a) (arc_weight o) s
            else if (arc_weight a <? arc_weight o)%N then process_inc b (arc_place o) s
            else s)
  end.
Definition process_enabled (b : builder) (t : nat) (s : efm) : efm :=
  e_walk b (bt_pre (tr_of b t)) (bt_post (tr_of b t)) (mkEfm (e_inc s) (e_dec s) (e_low s) (fset (e_done s) t true) (e_q s)).
(** Reducer.cpp:2125-2141, the transitions enabled initially. *)
Definition init_ok (b : builder) (a : arc) : bool := negb (Bool.eqb (arc_inhib a) (arc_weight a <=? init_at b (arc_place a))%N).
Definition e_start (b : builder) (s : efm) (t : nat) : efm :=
  if bt_skip (tr_of b t) then s else
  if forallb (init_ok b) (bt_pre (tr_of b t)) then process_enabled b t s else s.
(** Reducer.cpp:2145-2166, the fixed point. *)
Definition maybe_ok (b : builder) (s : efm) (a : arc) : bool :=
  (negb (arc_inhib a) || (init_at b (arc_place a) <? arc_weight a)%N || e_dec s (arc_place a)) &&
  (arc_inhib a || (arc_weight a <=? init_at b (arc_place a))%N || e_inc s (arc_place a)).
Fixpoint e_loop (b : builder) (fuel : nat) (s : efm) : res efm :=
  match fuel with
  | O => NoFuel
  | S f =>
    match e_q s with
    | [] => Ok s
    | t :: q =>
      let s' := mkEfm (e_inc s) (e_dec s) (e_low s) (e_done s) q in
      if e_done s t then e_loop b f s'
      else if forallb (maybe_ok b s) (bt_pre (tr_of b t)) then e_loop b f (process_enabled b t s') else e_loop b f s'
    end
  end.
Definition e_fuel (b : builder) : nat := S (2 * list_sum (map (fun p => length (bp_cons (pl_of b p))) (seq 0 (length (b_places b))))).
(** Reducer.cpp:2168-2174 (also 1739-1746, 2013-2018): a transition that is not marked is removed. *)
Definition drop_unless (seen : nat -> bool) (b : builder) (t : nat) : res builder :=
  if negb (bt_skip (tr_of b t)) && negb (seen t) then skip_transition b t else Ok b.
(** Reducer.cpp:2189-2207, the arcs of an observed place that never changes. *)
Definition detach_place (b : builder) (p : nat) : builder :=
  let pl := pl_of b p in
  let b1 := fold_left (rm_pre p) (bp_cons pl) b in
  let b2 := fold_left (rm_post p) (bp_prod pl) b1 in
  set_pl b2 p (mkBP [] [] (bp_skip pl) (bp_inhib pl)).
(** Reducer.cpp:2212-2279, one consumer. *)
Definition e_arc (s : efm) (p : nat) (x : builder * bool) (t : nat) : res (builder * bool) :=
  let '(b, ok) := x in
  a <- some (in_arc b p t) ;;
  if arc_inhib a then
    if (arc_weight a <=? e_low s p)%N then b' <- skip_transition b t ;; Ok (b', ok)
    else if negb (e_inc s p) && (init_at b p <? arc_weight a)%N then b' <- skip_in_arc b p t ;; Ok (b', ok)
    else Ok (b, false)
  else
    if (init_at b p <? arc_weight a)%N && negb (e_inc s p) then b' <- skip_transition b t ;; Ok (b', ok)
    else if (e_low s p <? arc_weight a)%N then Ok (b, false)
    else b' <- cut_arc b p t a ;; Ok (b', ok).
(** Reducer.cpp:2176-2294, one place; the consumers are visited from the last to the first. *)
Definition e_place (s : efm) (b : builder) (p : nat) : res builder :=
  if bp_skip (pl_of b p) then Ok b else
  if negb (e_inc s p) && negb (e_dec s p) then
    if inq p then Ok (detach_place b p) else skip_place b p
  else
    r <- fold_res (e_arc s p) (rev (bp_cons (pl_of b p))) (b, true) ;;
    let '(b1, ok) := r in
    if ok && negb (inq p) then skip_place b1 p else Ok b1.
Definition rule_efmnop (b : builder) : res builder :=
  let s0 := mkEfm (fun _ => false) (fun _ => false) (init_at b) (fun _ => false) [] in
  let s1 := fold_left (e_start b) (seq 0 (length (b_trans b))) s0 in
  s <- e_loop b (e_fuel b) s1 ;;
  b1 <- fold_res (drop_unless (e_done s)) (seq 0 (length (b_trans b))) b ;;
  fold_res (e_place s) (seq 0 (length (b_places b))) b1.
(** Reducer.cpp:806-862, D3: the presets, with the number of times that transition 1 replaces
    transition 2.  [None]: the pair is refused; the reasons differ only in whether the swapped
    pair is tried, which is a separate candidate.  Products wrap at 32 bits as in the code; the
    weights are positive (Reducer.cpp:241-301), so that the division is defined. *)
Definition wrap32 (x : N) : N := (x mod 4294967296)%N.
Definition no_arcs (l : list arc) : bool := match l with [] => true | _ => false end.
Fixpoint d_pre (l1 : list arc) : list arc -> N -> bool -> bool -> option (N * bool) :=
  fix walk (l2 : list arc) (mult : N) (some exact : bool) : option (N * bool) :=
  match l1 with
  | [] => if forallb (fun a => negb (inq (arc_place a))) l2 then Some (mult, exact && no_arcs l2) else None
  | a :: l1' =>
    match l2 with
    | [] => None
    | a2 :: l2' =>
      if arc_place a2 <? arc_place a then if inq (arc_place a2) then None else walk l2' mult some false
      else if negb (Nat.eqb (arc_place a2) (arc_place a)) then None
      else if (arc_weight a2 <? arc_weight a)%N then None
      else
        let m' := N.min (arc_weight a2 / arc_weight a) mult in
        if negb (mult =? 4294967295)%N && negb (m' =? mult)%N && some then None else
        let eq := (arc_weight a =? wrap32 (arc_weight a2 * m'))%N in
        if inq (arc_place a2) && negb eq then None
        else d_pre l1' l2' m' (some || inq (arc_place a2)) (exact && eq)
    end
  end.
(** Reducer.cpp:871-905, D4: the postsets. *)
Fixpoint d_post (mult : N) (l2 : list arc) : list arc -> bool -> option bool :=
  fix walk (l1 : list arc) (exact : bool) : option bool :=
  match l2 with
  | [] => if forallb (fun a => negb (inq (arc_place a))) l1 then Some (exact && no_arcs l1) else None
  | a2 :: l2' =>
    match l1 with
    | [] => None
    | a :: l1' =>
      if arc_place a <? arc_place a2 then if inq (arc_place a) then None else walk l1' false
      else if negb (Nat.eqb (arc_place a) (arc_place a2)) then None
      else
        let w := wrap32 (arc_weight a * mult) in
        if inq (arc_place a2) && negb (w =? arc_weight a2)%N then None
        else if (w <? arc_weight a2)%N then None
        else d_post mult l2' l1' (exact && (w =? arc_weight a2)%N)
    end
  end.
(** Reducer.cpp:793-914, one pair of consumers of the place [p]: transition 1 replaces 2. *)
Definition d_check (reach loops : bool) (x1 x2 : btrans) : bool :=
  if length (bt_post x1) <? length (bt_post x2) then false
  else if length (bt_pre x2) <? length (bt_pre x1) then false
  else if negb loops && (negb (Nat.eqb (length (bt_pre x1)) (length (bt_pre x2))) || negb (Nat.eqb (length (bt_post x1)) (length (bt_post x2)))) then false
  else match d_pre (bt_pre x1) (bt_pre x2) 4294967295 false true with
       | None => false
       | Some (mult, exact) =>
         if negb (mult =? 1)%N && negb reach then false
         else if negb loops && negb exact then false
         else match d_post mult (bt_post x2) (bt_post x1) exact with
              | None => false
              | Some exact' => loops || exact'
              end
       end.
Definition has_id (l : list nat) (t : nat) : bool := existsb (Nat.eqb t) l.
Definition rule_d (reach loops : bool) (b : builder) (p t1 t2 : nat) : res builder :=
  if Nat.eqb t1 t2 || negb (has_id (bp_cons (pl_of b p)) t1) || negb (has_id (bp_cons (pl_of b p)) t2) then Ok b else
  let x1 := tr_of b t1 in let x2 := tr_of b t2 in
  if bt_skip x1 || bt_skip x2 || bt_inhib x1 || bt_inhib x2 then Ok b else
  if d_check reach loops x1 x2 then skip_transition b t2 else Ok b.
(** Reducer.cpp:764-776: a second transition without arcs. *)
Definition rule_d0 (b : builder) (t1 t2 : nat) : res builder :=
  let ok := fun t => (t <? length (b_trans b)) && negb (bt_skip (tr_of b t)) && no_arcs (bt_pre (tr_of b t)) && no_arcs (bt_post (tr_of b t)) in
  if (t1 <? t2) && ok t1 && ok t2 then skip_transition b t2 else Ok b.
(** Reducer.cpp:671-703, rule C: the consumers of place 2 are consumers of place 1; the largest
    quotient of the weights.  The code divides as doubles; the model compares the fractions by
    multiplication, which agrees for weights below 2^26 and markings below 2^32 up to refusals. *)
Fixpoint c_drain (b : builder) (p1 p2 : nat) (l1 l2 : list nat) (r : N * N) : res (option (N * N)) :=
  match l2 with
  | [] => Ok (Some r)
  | t2 :: l2' =>
    match l1 with
    | [] => Ok None
    | t1 :: l1' =>
      if t2 <? t1 then Ok None
      else if t1 <? t2 then c_drain b p1 p2 l1' l2 r
      else
        a1 <- some (in_arc b p1 t1) ;;
        a2 <- some (in_arc b p2 t1) ;;
        c_drain b p1 p2 l1' l2' (if (fst r * arc_weight a1 <? arc_weight a2 * snd r)%N then (arc_weight a2, arc_weight a1) else r)
    end
  end.
(** Reducer.cpp:709-737: the producers of place 1 are producers of place 2. *)
Fixpoint c_fill (b : builder) (p1 p2 : nat) (r : N * N) (l2 l1 : list nat) : res bool :=
  match l1 with
  | [] => Ok true
  | t1 :: l1' =>
    match l2 with
    | [] => Ok false
    | t2 :: l2' =>
      if t1 <? t2 then Ok false
      else if t2 <? t1 then c_fill b p1 p2 r l2' l1
      else
        a2 <- some (out_arc b t2 p2) ;;
        a1 <- some (out_arc b t2 p1) ;;
        if (arc_weight a2 * snd r <? fst r * arc_weight a1)%N then Ok false else c_fill b p1 p2 r l2' l1'
    end
  end.
(** Reducer.cpp:649-743, one ordered pair of places: place 2 is removed. *)
Definition rule_c (b : builder) (p1 p2 : nat) : res builder :=
  let x1 := pl_of b p1 in let x2 := pl_of b p2 in
  if Nat.eqb p1 p2 || bp_skip x1 || bp_skip x2 then Ok b else
  if inq p2 || bp_inhib x2 then Ok b else
  if match bp_prod x2, bp_cons x1 with _ :: _, _ :: _ => false | _, _ => true end then Ok b else
  if (length (bp_cons x1) <? length (bp_cons x2)) || (length (bp_prod x2) <? length (bp_prod x1)) then Ok b else
  o <- c_drain b p1 p2 (bp_cons x1) (bp_cons x2) (0, 1)%N ;;
  match o with
  | None => Ok b
  | Some r =>
    if (init_at b p2 * snd r <? init_at b p1 * fst r)%N then Ok b else
    ok <- c_fill b p1 p2 r (bp_prod x2) (bp_prod x1) ;;
    if ok then skip_place b p2 else Ok b
  end.

(** A place that is to go and is not removed yet (Reducer.cpp:1748-1756, 2007-2012). *)
Definition place_if (c : nat -> bool) (b : builder) (p : nat) : res builder :=
  if negb (bp_skip (pl_of b p)) && c p then skip_place b p else Ok b.
(** Reducer.cpp:1888-2025, rule M: the fixed point of rules E to P without lower bounds; the
    places that never change and then the transitions that never fire are removed. *)
Definition rule_m (b : builder) : res builder :=
  let s0 := mkEfm (fun _ => false) (fun _ => false) (init_at b) (fun _ => false) [] in
  let s1 := fold_left (e_start b) (seq 0 (length (b_trans b))) s0 in
  s <- e_loop b (e_fuel b) s1 ;;
  b1 <- fold_res (place_if (fun p => negb (inq p) && negb (e_inc s p) && negb (e_dec s p))) (seq 0 (length (b_places b))) b ;;
  fold_res (drop_unless (e_done s)) (seq 0 (length (b_trans b))) b1.

(** Reducer.cpp:1654-1733, relevant: the transitions that can matter for the protected places,
    found backwards from them, and the places that these transitions look at. *)
Record rel := mkRel { r_seen : nat -> bool; r_todo : list nat; r_places : nat -> bool }.
Definition r_mark (s : rel) (t : nat) : rel :=
  if r_seen s t then s else mkRel (fset (r_seen s) t true) (t :: r_todo s) (r_places s).
Definition r_query (b : builder) (s : rel) (p : nat) : rel :=
  if inq p then fold_left r_mark (bp_prod (pl_of b p)) (fold_left r_mark (bp_cons (pl_of b p)) s) else s.
(** Reducer.cpp:1687-1705: a consumer of an inhibitor place that is left out; its arc from the
    place exists because it is a consumer. *)
Definition r_skip_inh (b : builder) (a : arc) (t : nat) : bool :=
  match out_arc b t (arc_place a), in_arc b (arc_place a) t with
  | Some o, Some i => arc_inhib i || (arc_weight a <=? arc_weight o)%N || (arc_weight i <=? arc_weight o)%N
  | _, _ => false
  end.
(** Reducer.cpp:1709-1721: a producer that is left out; its arc to the place exists. *)
Definition r_skip_prod (b : builder) (a : arc) (t : nat) : bool :=
  match in_arc b (arc_place a) t, out_arc b t (arc_place a) with
  | Some i, Some o => negb (arc_inhib i) && (arc_weight o <=? arc_weight i)%N
  | _, _ => false
  end.
Definition r_arc (rc : bool) (b : builder) (s : rel) (a : arc) : rel :=
  let p := arc_place a in
  let s1 :=
    if arc_inhib a then fold_left (fun s t => if r_skip_inh b a t then s else r_mark s t) (bp_cons (pl_of b p)) s
    else
      let s' := fold_left (fun s t => if r_skip_prod b a t then s else r_mark s t) (bp_prod (pl_of b p)) s in
      if negb rc || inq p then fold_left r_mark (bp_cons (pl_of b p)) s' else s' in
  mkRel (r_seen s1) (r_todo s1) (fset (r_places s1) p true).
Fixpoint r_loop (rc : bool) (b : builder) (fuel : nat) (s : rel) : res rel :=
  match fuel with
  | O => NoFuel
  | S f =>
    match r_todo s with
    | [] => Ok s
    | t :: l => r_loop rc b f (fold_left (r_arc rc b) (bt_pre (tr_of b t)) (mkRel (r_seen s) l (r_places s)))
    end
  end.
Definition relevant (rc : bool) (b : builder) : res rel :=
  r_loop rc b (S (length (b_trans b))) (fold_left (r_query b) (seq 0 (length (b_places b))) (mkRel (fun _ => false) [] (fun _ => false))).
(** Reducer.cpp:1034-1049 and 1735-1758, rule I; [rc]: consumers may be removed. *)
Definition rule_i (rc : bool) (b : builder) : res builder :=
  s <- relevant rc b ;;
  b1 <- fold_res (drop_unless (r_seen s)) (seq 0 (length (b_trans b))) b ;;
  fold_res (place_if (fun p => negb (r_places s p) && negb (inq p))) (seq 0 (length (b_places b))) b1.
End Rules.
