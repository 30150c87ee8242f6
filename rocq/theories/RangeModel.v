(** Model of include/PetriEngine/TAR/range.h. *)
From Verif Require Import Base RangeSpec.
Set Implicit Arguments.

Definition rmax : N := 2 ^ 32 - 1.
(** range.h:47-57, no_upper, no_lower, unbound *)
Definition no_upper (r : range) : bool := (snd r =? rmax)%N.
Definition no_lower (r : range) : bool := (fst r =? 0)%N.
Definition unbound (r : range) : bool := no_lower r && no_upper r.
(** range.h:59-65, isSound, contains *)
Definition is_sound (r : range) : bool := (fst r <=? snd r)%N.
Definition contains (r : range) (v : N) : bool := ((fst r <=? v) && (v <=? snd r))%N.
(** range.h:96-105, compare and intersects *)
Definition r_compare (r s : range) : bool * bool :=
  (((fst r <=? fst s) && (snd s <=? snd r)), ((fst s <=? fst r) && (snd r <=? snd s)))%N.
Definition r_intersects (r s : range) : bool := ((fst r <=? snd s) && (fst s <=? snd r))%N.
(** range.h:107-131, the operators &= and |= *)
Definition r_and (r s : range) : range := (N.max (fst r) (fst s), N.min (snd r) (snd s)).
Definition r_or (r s : range) : range := (N.min (fst r) (fst s), N.max (snd r) (snd s)).
Definition r_or_val (r : range) (v : N) : range := (N.min v (fst r), N.max v (snd r)).
Definition r_and_val (r : range) (v : N) : range := (v, v).
(** range.h:133-160, the operators -= and +=; a failing assertion is UB *)
Definition r_sub (r : range) (k : N) : res range :=
  let lo := if (fst r <? k)%N then 0%N else (fst r - k)%N in
  if (snd r =? rmax)%N then Ok (lo, snd r)
  else if (snd r <? k)%N then UB
  else Ok (lo, (snd r - k)%N).
Definition r_add (r : range) (k : N) : res range :=
  let hi := if (rmax - k <=? snd r)%N then rmax else (snd r + k)%N in
  if (fst r =? 0)%N then Ok (0%N, hi)
  else if (rmax - k <=? fst r)%N then UB
  else Ok ((fst r + k)%N, hi).

(** range.h:232-258, operator[] and find_or_add with std::lower_bound: the first entry that
    is not before the place *)
Fixpoint lookup (l : rvec) (p : nat) : option range :=
  match l with
  | [] => None
  | (q, r) :: l => if q <? p then lookup l p else if Nat.eqb q p then Some r else None
  end.
(** the vector after f was applied to the entry that find_or_add returns *)
Fixpoint at_place (l : rvec) (p : nat) (f : range -> range) : rvec :=
  match l with
  | [] => [(p, f (0%N, rmax))]
  | (q, r) :: l' =>
    if q <? p then (q, r) :: at_place l' p f
    else if Nat.eqb q p then (q, f r) :: l'
    else (p, f (0%N, rmax)) :: l
  end.
Definition find_or_add (l : rvec) (p : nat) : rvec := at_place l p (fun r => r).
(** range.h:260-279, lower, upper and unbound *)
Definition v_lower (l : rvec) (p : nat) : N := match lookup l p with None => 0%N | Some r => fst r end.
Definition v_upper (l : rvec) (p : nat) : N := match lookup l p with None => rmax | Some r => snd r end.
Definition v_unbound (l : rvec) (p : nat) : bool := match lookup l p with None => true | Some r => unbound r end.
(** range.h:281-305, compact, is_compact, compress *)
Definition compact (l : rvec) : rvec := filter (fun e => negb (unbound (snd e))) l.
Definition is_compact (l : rvec) : bool := forallb (fun e => negb (unbound (snd e))) l.

(** range.h:307-338, compare *)
Fixpoint v_compare (s : rvec) : rvec -> bool -> bool -> bool * bool :=
  fix inner (o : rvec) (a b : bool) : bool * bool :=
    match s, o with
    | [], [] => (a, b && true)
    | [], _ => (a, b && false)
    | _, [] => (false, b)
    | (p, r) :: s', (q, t) :: o' =>
      if Nat.eqb p q then
        let c := r_compare r t in
        let a := a && fst c in
        let b := b && (b && snd c) in
        if negb a && negb b then (a, b) else v_compare s' o' a b
      else if p <? q then
        if negb b then (false, b) else v_compare s' o false b
      else
        if negb a then (a, false) else inner o' a false
    end.
Definition compare (s o : rvec) : bool * bool := v_compare s o true true.
(** range.h:351-364, is_true and is_false *)
Definition is_true (l : rvec) : bool := match l with [] => true | _ => false end.
Definition is_false (n : nat) (l : rvec) : bool :=
  Nat.eqb (length l) n && forallb (fun e => ((fst (snd e) =? 0) && (snd (snd e) =? 0))%N) l.
(** range.h:366-381, operator< *)
Fixpoint v_less_eqlen (s o : rvec) : bool :=
  match s, o with
  | (p, r) :: s, (q, t) :: o =>
    if negb (Nat.eqb p q) then p <? q
    else if negb (fst r =? fst t)%N then (fst r <? fst t)%N
    else if negb (snd r =? snd t)%N then (snd r <? snd t)%N
    else v_less_eqlen s o
  | _, _ => false
  end.
Definition v_less (s o : rvec) : bool :=
  if negb (Nat.eqb (length s) (length o)) then length s <? length o else v_less_eqlen s o.
(** range.h:383-386, operator== *)
Definition v_eq (s o : rvec) : bool := let c := compare s o in fst c && snd c.
(** range.h:388-396, operator&= with one range *)
Fixpoint v_and_one (l : rvec) (p : nat) (x : range) : rvec :=
  match l with
  | [] => [(p, x)]
  | (q, r) :: l' =>
    if q <? p then (q, r) :: v_and_one l' p x
    else if Nat.eqb q p then (q, r_and r x) :: l'
    else (p, x) :: l
  end.
(** range.h:398-417, operator&= with a vector: after a common place the other iterator is
    not advanced *)
Fixpoint v_and (s : rvec) : rvec -> rvec :=
  fix inner (o : rvec) : rvec :=
    match s, o with
    | [], o => o
    | e :: s', [] => e :: v_and s' []
    | (p, r) :: s', (q, t) :: o' =>
      if q <? p then (q, t) :: inner o'
      else if Nat.eqb q p then (p, r_and r t) :: v_and s' o
      else (p, r) :: v_and s' o
    end.
(** range.h:419-431, restricts; [writes] is sorted.  The inner loop is [skip_to]. *)
Fixpoint skip_to (l : rvec) (p : nat) : rvec :=
  match l with
  | [] => []
  | (q, r) :: l' => if (q <? p) || unbound r then skip_to l' p else l
  end.
Fixpoint restricts (l : rvec) (writes : list nat) : bool :=
  match writes with
  | [] => false
  | p :: ws =>
    match skip_to l p with
    | [] => false
    | (q, r) :: l' => if Nat.eqb q p then true else restricts ((q, r) :: l') ws
    end
  end.
