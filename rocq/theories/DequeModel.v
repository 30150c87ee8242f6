(** Model of light_deque, include/utils/structures/light_deque.h. *)
From Verif Require Import Base DequeSpec.
Set Implicit Arguments.

Section Deque.
  Variable T : Type.
  (** light_deque.h:18-22.  [None] is raw memory: allocated, no object constructed. *)
  Record deque := mkDeque { d_front : nat; d_back : nat; d_size : nat; d_data : list (option T) }.

  Definition raw (n : nat) : list (option T) := repeat None n.
  (** light_deque.h:24-29, constructor. *)
  Definition dq_new (initial : nat) : deque :=
    let n := if Nat.eqb initial 0 then 1 else initial in mkDeque 0 0 n (raw n).
  (** use of an object: raw memory and out-of-bounds accesses are undefined *)
  Definition get (d : list (option T)) (i : nat) : res T :=
    c <- rd d i ;; match c with Some x => Ok x | None => UB end.
  (** running the destructor of cell [i] *)
  Definition destroy (d : list (option T)) (i : nat) : res (list (option T)) :=
    x <- get d i ;; wr d i None.
  (** for (e : *this): the objects at _front .. _back - 1 *)
  Fixpoint get_range (d : list (option T)) (i k : nat) : res (list T) :=
    match k with
    | O => Ok []
    | S k => x <- get d i ;; r <- get_range d (S i) k ;; Ok (x :: r)
    end.
  Fixpoint destroy_range (d : list (option T)) (i k : nat) : res (list (option T)) :=
    match k with
    | O => Ok d
    | S k => d' <- destroy d i ;; destroy_range d' (S i) k
    end.
  (** light_deque.h:148-161, expand: the objects are moved to the start of a block of twice
      the size; the old block is freed without destroying the moved-from objects. *)
  Definition dq_expand (q : deque) : res deque :=
    l <- get_range (d_data q) (d_front q) (d_back q - d_front q) ;;
    if 2 * d_size q <? length l then UB
    else Ok (mkDeque 0 (d_back q - d_front q) (2 * d_size q) (map Some l ++ raw (2 * d_size q - length l))).
  (** light_deque.h:51-67, push_back. *)
  Definition dq_push (q : deque) (x : T) : res deque :=
    d <- wr (d_data q) (d_back q) (Some x) ;;
    let q' := mkDeque (d_front q) (S (d_back q)) (d_size q) d in
    if Nat.eqb (S (d_back q)) (d_size q) then dq_expand q' else Ok q'.
  Fixpoint dq_push_all (q : deque) (l : list T) : res deque :=
    match l with
    | [] => Ok q
    | x :: l => q' <- dq_push q x ;; dq_push_all q' l
    end.
  (** light_deque.h:69-96. *)
  Definition dq_empty (q : deque) : bool := Nat.eqb (d_front q) (d_back q).
  Definition dq_length (q : deque) : nat := d_back q - d_front q.
  Definition dq_front (q : deque) : res T := get (d_data q) (d_front q).
  Definition dq_back (q : deque) : res T :=
    match d_back q with O => UB | S b => get (d_data q) b end.
  (** light_deque.h:140-146, operator[]. *)
  Definition dq_nth (q : deque) (i : nat) : res T := get (d_data q) (d_front q + i).
  (** light_deque.h:98-106, pop_front. *)
  Definition dq_pop_front (q : deque) : res deque :=
    d <- destroy (d_data q) (d_front q) ;;
    if d_back q <=? S (d_front q) then Ok (mkDeque 0 0 (d_size q) d)
    else Ok (mkDeque (S (d_front q)) (d_back q) (d_size q) d).
  (** light_deque.h:118-123, clear. *)
  Definition dq_clear (q : deque) : res deque :=
    d <- destroy_range (d_data q) (d_front q) (d_back q - d_front q) ;;
    Ok (mkDeque 0 0 (d_size q) d).
  (** light_deque.h:108-116, pop_back. *)
  Definition dq_pop_back (q : deque) : res deque :=
    q' <- (if d_front q <? d_back q
           then d <- destroy (d_data q) (d_back q - 1) ;; Ok (mkDeque (d_front q) (d_back q - 1) (d_size q) d)
           else Ok q) ;;
    if Nat.eqb (d_back q') (d_front q') then dq_clear q' else Ok q'.
  (** light_deque.h:31-41, operator=; [other] is another deque. *)
  Definition dq_assign (q other : deque) : res deque :=
    _ <- destroy_range (d_data q) (d_front q) (d_back q - d_front q) ;;
    let n := dq_length other in
    l <- get_range (d_data other) (d_front other) (d_back other - d_front other) ;;
    dq_push_all (mkDeque 0 0 n (raw n)) l.

  (** A call of a member function and what it returns. *)
  Definition dq_step (q : deque) (o : dq_op T) : res (deque * dq_obs T) :=
    match o with
    | OPush x => q' <- dq_push q x ;; Ok (q', RNone)
    | OPopFront => q' <- dq_pop_front q ;; Ok (q', RNone)
    | OPopBack => q' <- dq_pop_back q ;; Ok (q', RNone)
    | OClear => q' <- dq_clear q ;; Ok (q', RNone)
    | OFront => x <- dq_front q ;; Ok (q, RElem x)
    | OBack => x <- dq_back q ;; Ok (q, RElem x)
    | ONth i => x <- dq_nth q i ;; Ok (q, RElem x)
    | OEmpty => Ok (q, RBool (dq_empty q))
    | OSize => Ok (q, RSize (dq_length q))
    | OAssign l => other <- dq_push_all (dq_new 64) l ;; q' <- dq_assign q other ;; Ok (q', RNone)
    end.
  Fixpoint dq_run (q : deque) (ops : list (dq_op T)) : res (list (dq_obs T)) :=
    match ops with
    | [] => Ok []
    | o :: ops => r <- dq_step q o ;; rs <- dq_run (fst r) ops ;; Ok (snd r :: rs)
    end.
End Deque.
