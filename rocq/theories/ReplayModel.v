(** Model of TraceReplay: reading a trace and playing it back on a net. *)
From Verif Require Import Base NetModel QueryModel ReplaySpec.
Set Implicit Arguments.

(** src/PetriEngine/TraceReplay.cpp:41-49: the maps from names to indices are filled in
    order of the indices, a later equal name overwrites an earlier one. *)
Fixpoint find_from (names : list nat) (n i : nat) : option nat :=
  match names with
  | [] => None
  | x :: l =>
    match find_from l n (S i) with
    | Some j => Some j
    | None => if Nat.eqb x n then Some i else None
    end
  end.
Definition find_name (names : list nat) (n : nat) : option nat := find_from names n 0.
(** TraceReplay.cpp:48, transitions[DEADLOCK_TRANS] = -1; the result -1 is [Some None]. *)
Definition find_trans (dl : nat) (tnames : list nat) (n : nat) : option (option nat) :=
  if Nat.eqb n dl then Some None
  else match find_name tnames n with Some t => Some (Some t) | None => None end.

(** include/PetriEngine/TraceReplay.h, struct Transition; the map from places to counts is
    the list of the mentioned places, with repetitions.  The Buchi state is left out: it is
    parsed and never used. *)
Record tentry := mkEntry { te_id : nat; te_tokens : list nat }.

(** TraceReplay.cpp:117-130, parseToken; unordered_map::at throws. *)
Fixpoint parse_tokens (pnames : list nat) (l : list nat) : res (list nat) :=
  match l with
  | [] => Ok []
  | n :: l' =>
    match find_name pnames n with
    | None => Throw
    | Some p => r <- parse_tokens pnames l' ;; Ok (p :: r)
    end
  end.
(** TraceReplay.cpp:84-115, parseTransition; without an id the null pointer is
    dereferenced.  Children of another name than token are read as tokens. *)
Definition parse_transition (dl : nat) (pnames : list nat) (n : tnode) : res (option tentry) :=
  match n with
  | TLoop => Ok None
  | TDead ps => r <- parse_tokens pnames ps ;; Ok (Some (mkEntry dl r))
  | TTrans None _ => UB
  | TTrans (Some id) ps => r <- parse_tokens pnames ps ;; Ok (Some (mkEntry id r))
  end.
(** TraceReplay.cpp:66-82, parseRoot: [acc] is the vector trace, [loop] is loop_idx. *)
Fixpoint parse_root (dl : nat) (pnames : list nat) (ltl : bool) (l : list tnode) (acc : list tentry) (loop : option nat)
  : res (list tentry * option nat) :=
  match l with
  | [] => match loop with
          | None => if ltl then Throw else Ok (acc, loop)
          | _ => Ok (acc, loop)
          end
  | n :: l' =>
    e <- parse_transition dl pnames n ;;
    match e with
    | None => parse_root dl pnames ltl l' acc (Some (length acc))
    | Some e => parse_root dl pnames ltl l' (acc ++ [e]) loop
    end
  end.

(** TraceReplay.cpp:188-208, comparison of the listed tokens with the input arcs. *)
Fixpoint check_tokens (toks : list nat) (pre : list invariant) : bool :=
  match pre with
  | [] => true
  | iv :: pre' =>
    if iv_inhib iv then check_tokens toks pre'
    else
      let n := count_occ Nat.eq_dec toks (iv_place iv) in
      if Nat.eqb n 0 then false
      else if negb (N.of_nat n mod 2 ^ 32 =? iv_tokens iv)%N then false
      else check_tokens toks pre'
  end.
(** TraceReplay.cpp:146-231, _play_trace; [i] is the position, [m] the state, [lm] the saved
    loop state when looping.  The assertion that a deadlock entry is the last one is left
    out (release build). *)
Fixpoint play (net : cnet) (dl : nat) (tnames : list nat) (loop : option nat)
  (i : nat) (l : list tentry) (m : list N) (lm : option (list N)) : res bool :=
  match l with
  | [] =>
    match lm with
    | None => Ok true
    | Some m0 => Ok (forallb (fun p => (nth p m 0 =? nth p m0 0)%N) (seq 0 (cn_places net)))
    end
  | e :: l' =>
    let lm := if match loop with Some k => Nat.eqb i k | None => false end then Some m else lm in
    match find_trans dl tnames (te_id e) with
    | None => Throw
    | Some None => deadlocked net m
    | Some (Some t) =>
      en <- check_preset net m t ;;
      if en then
        m' <- fire net m t ;;
        pre <- preset net t ;;
        if (if te_tokens e then true else check_tokens (te_tokens e) pre)
        then play net dl tnames loop (S i) l' m' lm
        else Ok false
      else Ok false
    end
  end.
(** Reading and replaying, TraceReplay.cpp:35-82 and 132-144. *)
Definition replay (net : cnet) (dl : nat) (pnames tnames : list nat) (ltl : bool) (l : list tnode) : res bool :=
  r <- parse_root dl pnames ltl l [] None ;;
  play net dl tnames (snd r) 0 (fst r) (cn_init net) None.
