(** Model of PetriNet (compressed arrays), its enabledness and deadlock tests,
    and of SuccessorGenerator. *)
From Verif Require Import Base NetSpec.
From Coq Require Import Sorted.
Set Implicit Arguments.

(** include/PetriEngine/PetriNet.h:50-56, struct Invariant (one arc). *)
Record invariant := mkInv {
  iv_place : nat;        (* uint32_t place *)
  iv_tokens : N;         (* uint32_t tokens *)
  iv_inhib : bool;       (* bool inhibitor *)
  iv_dir : Z             (* int8_t direction *)
}.

(** include/PetriEngine/PetriNet.h:118-140, class PetriNet: the arrays
    _transitions (inputs,outputs), _invariants, _placeToPtrs, _controllable and
    _initialMarking.  Names and locations are left out. *)
Record cnet := mkCnet {
  cn_places : nat;
  cn_ntrans : nat;
  cn_transitions : list (nat * nat);
  cn_invs : list invariant;
  cn_ptrs : list nat;
  cn_init : list N;
  cn_ctrl : list bool
}.

(** src/PetriEngine/SuccessorGenerator.cpp:74-93, SuccessorGenerator::checkPreset,
    the loop from [finv] over [k] arcs. *)
Fixpoint check_preset_loop (net : cnet) (m : list N) (finv k : nat) : res bool :=
  match k with
  | O => Ok true
  | S k' =>
    iv <- rd (cn_invs net) finv ;;
    v <- rd m (iv_place iv) ;;
    if (v <? iv_tokens iv)%N then
      if negb (iv_inhib iv) then Ok false
      else check_preset_loop net m (S finv) k'
    else
      if iv_inhib iv then Ok false
      else check_preset_loop net m (S finv) k'
  end.

(** src/PetriEngine/SuccessorGenerator.cpp:74-93. *)
Definition check_preset (net : cnet) (m : list N) (t : nat) : res bool :=
  ptr <- rd (cn_transitions net) t ;;
  check_preset_loop net m (fst ptr) (snd ptr - fst ptr).

(** src/PetriEngine/SuccessorGenerator.cpp:61-72, consumePreset.  The unsigned
    subtraction wraps modulo 2^32 when the assertion does not hold. *)
Fixpoint consume_loop (net : cnet) (m : list N) (finv k : nat) : res (list N) :=
  match k with
  | O => Ok m
  | S k' =>
    iv <- rd (cn_invs net) finv ;;
    if negb (iv_inhib iv) then
      v <- rd m (iv_place iv) ;;
      m' <- wr m (iv_place iv) ((v + 2 ^ 32 - iv_tokens iv) mod 2 ^ 32)%N ;;
      consume_loop net m' (S finv) k'
    else consume_loop net m (S finv) k'
  end.

Definition consume_preset (net : cnet) (m : list N) (t : nat) : res (list N) :=
  ptr <- rd (cn_transitions net) t ;;
  consume_loop net m (fst ptr) (snd ptr - fst ptr).

(** src/PetriEngine/SuccessorGenerator.cpp:95-108, producePostset; throws when a
    place would hold 2^32 - 1 tokens or more. *)
Fixpoint produce_loop (net : cnet) (m : list N) (finv k : nat) : res (list N) :=
  match k with
  | O => Ok m
  | S k' =>
    iv <- rd (cn_invs net) finv ;;
    v <- rd m (iv_place iv) ;;
    let n := (v + iv_tokens iv)%N in
    if (2 ^ 32 - 1 <=? n)%N then Throw
    else
      m' <- wr m (iv_place iv) n ;;
      produce_loop net m' (S finv) k'
  end.

Definition produce_postset (net : cnet) (m : list N) (t : nat) : res (list N) :=
  ptr <- rd (cn_transitions net) t ;;
  ptr2 <- rd (cn_transitions net) (S t) ;;
  produce_loop net m (snd ptr) (fst ptr2 - snd ptr).

(** src/PetriEngine/SuccessorGenerator.cpp:110-116, _fire: copy the parent,
    consume, produce. *)
Definition fire (net : cnet) (m : list N) (t : nat) : res (list N) :=
  m1 <- consume_preset net m t ;;
  produce_postset net m1 t.

(** State of the generator: _suc_pcounter and _suc_tcounter; the value 2^32-1 of
    _suc_tcounter is [None].  include/PetriEngine/SuccessorGenerator.h:104-105 *)
Record gen := mkGen { g_p : nat; g_t : option nat }.

(** include/PetriEngine/SuccessorGenerator.h:84-90, the inner loop of _next over
    transitions [t], [t+1], ... ([k] of them).  Result: the transition found. *)
Fixpoint next_trans (net : cnet) (m : list N) (t k : nat) : res (option nat) :=
  match k with
  | O => Ok None
  | S k' =>
    b <- check_preset net m t ;;
    if b then Ok (Some t) else next_trans net m (S t) k'
  end.

(** include/PetriEngine/SuccessorGenerator.h:76-96, _next with the constant-true
    predicate used by next().  [k] is the number of places left.  The inner loop
    runs until the counter *equals* [last], so a counter beyond [last] runs out
    of the arrays. *)
Fixpoint next_place (net : cnet) (m : list N) (p : nat) (tc : option nat) (k : nat)
  : res (option (nat * list N) * gen) :=
  match k with
  | O => Ok (None, mkGen p tc)
  | S k' =>
    go <- (if Nat.eqb p 0 then Ok true
           else v <- rd m p ;; Ok (0 <? v)%N) ;;
    if go then
      t0 <- (match tc with
             | None => rd (cn_ptrs net) p
             | Some t => Ok t
             end) ;;
      last <- rd (cn_ptrs net) (S p) ;;
      if last <? t0 then UB
      else
        f <- next_trans net m t0 (last - t0) ;;
        match f with
        | Some t =>
          m' <- fire net m t ;;
          Ok (Some (t, m'), mkGen p (Some (S t)))
        | None => next_place net m (S p) None k'
        end
    else next_place net m (S p) None k'
  end.

Definition gen_next (net : cnet) (m : list N) (g : gen)
  : res (option (nat * list N) * gen) :=
  next_place net m (g_p g) (g_t g) (cn_places net - g_p g).

(** src/PetriEngine/SuccessorGenerator.cpp:49-54 and SuccessorGenerator.h:48-52,
    prepare(state): counters 0 and 2^32-1. *)
Definition gen_prepare : gen := mkGen 0 None.

(** The caller's loop: [while(generator.next(working)) ...], collecting the
    fired transition and the successor marking. *)
Fixpoint gen_all (fuel : nat) (net : cnet) (m : list N) (g : gen)
  : res (list (nat * list N)) :=
  match fuel with
  | O => NoFuel
  | S f =>
    r <- gen_next net m g ;;
    match fst r with
    | None => Ok []
    | Some x =>
      l <- gen_all f net m (snd r) ;;
      Ok (x :: l)
    end
  end.

Definition successors (net : cnet) (m : list N) : res (list (nat * list N)) :=
  gen_all (S (cn_ntrans net)) net m gen_prepare.

(** src/PetriEngine/PetriNet.cpp:87-124, PetriNet::deadlocked: the arc loop. *)
Fixpoint dead_arcs (net : cnet) (m : list N) (finv k : nat) : res bool :=
  match k with
  | O => Ok true
  | S k' =>
    iv <- rd (cn_invs net) finv ;;
    v <- rd m (iv_place iv) ;;
    if (if negb (iv_inhib iv) then (iv_tokens iv <=? v)%N else (v <? iv_tokens iv)%N)
    then dead_arcs net m (S finv) k'
    else Ok false
  end.

(** ... the loop over the transitions filed under one place: true if one of
    them is enabled. *)
Fixpoint dead_trans (net : cnet) (m : list N) (t k : nat) : res bool :=
  match k with
  | O => Ok false
  | S k' =>
    ptr <- rd (cn_transitions net) t ;;
    b <- dead_arcs net m (fst ptr) (snd ptr - fst ptr) ;;
    if b then Ok true else dead_trans net m (S t) k'
  end.

(** ... the loop over places. *)
Fixpoint dead_places (net : cnet) (m : list N) (p k : nat) : res bool :=
  match k with
  | O => Ok true
  | S k' =>
    go <- (if Nat.eqb p 0 then Ok true else v <- rd m p ;; Ok (0 <? v)%N) ;;
    if go then
      first <- rd (cn_ptrs net) p ;;
      last <- rd (cn_ptrs net) (S p) ;;
      if last <? first then UB
      else
        b <- dead_trans net m first (last - first) ;;
        if b then Ok false else dead_places net m (S p) k'
    else dead_places net m (S p) k'
  end.

Definition deadlocked (net : cnet) (m : list N) : res bool :=
  if Nat.eqb (cn_places net) 0 then Ok (Nat.eqb (cn_ntrans net) 0)
  else dead_places net m 0 (cn_places net).

(** src/PetriEngine/PetriNet.cpp:142-155, PetriNet::fireable. *)
Fixpoint fireable_loop (net : cnet) (m : list N) (first k : nat) : res bool :=
  match k with
  | O => Ok true
  | S k' =>
    iv <- rd (cn_invs net) first ;;
    v <- rd m (iv_place iv) ;;
    if Bool.eqb (iv_inhib iv) (iv_tokens iv <=? v)%N then Ok false
    else fireable_loop net m (S first) k'
  end.

Definition fireable (net : cnet) (m : list N) (t : nat) : res bool :=
  ptr <- rd (cn_transitions net) t ;;
  fireable_loop net m (fst ptr) (snd ptr - fst ptr).

(** src/PetriEngine/PetriNet.cpp:52-73, PetriNet::inArc: linear scan. *)
Fixpoint in_arc_loop (net : cnet) (p imin k : nat) : res N :=
  match k with
  | O => Ok 0%N
  | S k' =>
    iv <- rd (cn_invs net) imin ;;
    if Nat.eqb (iv_place iv) p then
      Ok (if iv_inhib iv then 0%N else iv_tokens iv)
    else in_arc_loop net p (S imin) k'
  end.

Definition in_arc (net : cnet) (p t : nat) : res N :=
  ptr <- rd (cn_transitions net) t ;;
  in_arc_loop net p (fst ptr) (snd ptr - fst ptr).

(** src/PetriEngine/PetriNet.cpp:74-86, PetriNet::outArc. *)
Fixpoint out_arc_loop (net : cnet) (p imin k : nat) : res N :=
  match k with
  | O => Ok 0%N
  | S k' =>
    iv <- rd (cn_invs net) imin ;;
    if Nat.eqb (iv_place iv) p then Ok (iv_tokens iv)
    else out_arc_loop net p (S imin) k'
  end.

Definition out_arc (net : cnet) (t p : nat) : res N :=
  ptr <- rd (cn_transitions net) t ;;
  ptr2 <- rd (cn_transitions net) (S t) ;;
  out_arc_loop net p (snd ptr) (fst ptr2 - snd ptr).

(** Reading the arrays back as a textbook net (used in statements only). *)
Definition inv_arc (iv : invariant) : arc :=
  mkArc (iv_place iv) (iv_tokens iv) (iv_inhib iv).
Definition out_arc_of (iv : invariant) : arc :=
  mkArc (iv_place iv) (iv_tokens iv) false.
Definition net_trans (net : cnet) (t : nat) : trans :=
  let a := nth t (cn_transitions net) (0, 0) in
  let b := nth (S t) (cn_transitions net) (0, 0) in
  mkTrans (map inv_arc (slice (cn_invs net) (fst a) (snd a)))
          (map out_arc_of (slice (cn_invs net) (snd a) (fst b))).
Definition to_pnet (net : cnet) : pnet :=
  mkPnet (cn_places net) (map (net_trans net) (seq 0 (cn_ntrans net))).

(** The layout the code relies on (PetriNetBuilder.cpp:218-233 describes it):
    consecutive slices, transitions grouped by a consumed place, the first group
    unrestricted ("orphans are currently under place 0"). *)
Record layout (net : cnet) : Prop := {
  ly_len_tr : length (cn_transitions net) = S (cn_ntrans net);
  ly_len_ptr : length (cn_ptrs net) = S (cn_places net);
  ly_io : forall t a, nth_error (cn_transitions net) t = Some a ->
          fst a <= snd a /\ snd a <= length (cn_invs net);
  ly_oi : forall t a b, nth_error (cn_transitions net) t = Some a ->
          nth_error (cn_transitions net) (S t) = Some b -> snd a <= fst b;
  ly_pp : forall p a b, nth_error (cn_ptrs net) p = Some a ->
          nth_error (cn_ptrs net) (S p) = Some b -> a <= b;
  ly_first : nth_error (cn_ptrs net) 0 = Some 0;
  ly_last : nth_error (cn_ptrs net) (cn_places net) = Some (cn_ntrans net);
  ly_wf : wf_pnet (to_pnet net);
  ly_group : forall p a b t, 0 < p ->
          nth_error (cn_ptrs net) p = Some a ->
          nth_error (cn_ptrs net) (S p) = Some b ->
          a <= t < b ->
          exists w, In (mkArc p w false) (tr_pre (net_trans net t)) /\ (0 < w)%N
}.

(** Meaning of the direction stored with an arc: the sign of the net effect of the
    transition on the place of the arc (used in statements only). *)
Definition dirs_ok (net : cnet) : Prop :=
  forall t iv, t < cn_ntrans net ->
    (let a := nth t (cn_transitions net) (0, 0) in
     let b := nth (S t) (cn_transitions net) (0, 0) in
     In iv (slice (cn_invs net) (fst a) (snd a)) \/ In iv (slice (cn_invs net) (snd a) (fst b))) ->
    iv_dir iv = Z.sgn (Z.of_N (weight_at (tr_post (net_trans net t)) (iv_place iv)) -
                       Z.of_N (weight_at (tr_pre (net_trans net t)) (iv_place iv))).

(** The arcs of every transition are stored in the order of their places (net->sort(),
    PetriNet.cpp:169-178). *)
Definition sorted_arcs (net : cnet) : Prop := forall t, t < cn_ntrans net ->
  StronglySorted le (map arc_place (tr_pre (net_trans net t))) /\ StronglySorted le (map arc_place (tr_post (net_trans net t))).
