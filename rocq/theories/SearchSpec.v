(** Specification vocabulary for the reachability search. *)
From Verif Require Import Base NetSpec StoreSpec.
From Coq Require Import Permutation.
From Verif Require Import SearchModel. (* for the interface types wlist, query, event *)
Set Implicit Arguments.

(** A waiting list loses, duplicates and invents nothing: [content] is the multiset of
    waiting identifiers, [good] the states that occur.  Identifiers are below [B] (most
    lists store 32 bits).  [crash] says whether an operation may have undefined behaviour
    instead. *)
Record is_bag (B : N) (crash : Prop) (Q : wlist) (good : wl_t Q -> Prop) (content : wl_t Q -> list nat)
  : Prop := {
  bag_new : good (wl_new Q) /\ content (wl_new Q) = [];
  bag_push : forall q id d t, good q -> (N.of_nat id < B)%N ->
    (exists q', wl_push Q q id d t = Ok q' /\ good q' /\ Permutation (content q') (id :: content q)) \/
    (wl_push Q q id d t = UB /\ crash);
  bag_pop : forall q, good q ->
    (wl_pop Q q = Ok None /\ content q = []) \/
    (exists id q', wl_pop Q q = Ok (Some (id, q')) /\ good q' /\ Permutation (content q) (id :: content q')) \/
    (wl_pop Q q = UB /\ crash)
}.

Section S.
  Variable succ : marking -> list (nat * marking) * res unit.
  Variable k : N.            (* token bound, 0: none *)
  Variable init : marking.

  (** [swalk w m]: the generator leads from the initial marking to [m] by the
      transitions [w], every marking on the way being within the token bound. *)
  Inductive swalk : list nat -> marking -> Prop :=
  | sw_nil : over_bound k init = false -> swalk [] init
  | sw_snoc : forall w m t m', swalk w m -> In (t, m') (fst (succ m)) -> over_bound k m' = false ->
      swalk (w ++ [t]) m'.
  Definition sreach (m : marking) : Prop := exists w, swalk w m.
End S.

(** Evaluating a query on a sequence of markings: the number it keeps, and whether it
    was never true. *)
Definition runq (q : query) (st : N) (l : list marking) : N := fold_left (fun s m => fst (q s m)) l st.
Definition nohit (q : query) (st : N) (l : list marking) : Prop :=
  forall l1 m l2, l = l1 ++ m :: l2 -> snd (q (runq q st l1) m) = false.

Definition maxtot (l : list marking) : N := fold_right (fun m x => N.max (total32 m) x) 0%N l.

(** Runs within the token bound [k] ([0]: no bound): the run and all markings on it. *)
Definition krun (net : pnet) (k : N) (m0 : marking) (w : list nat) (m : marking) : Prop :=
  run net m0 w m /\
  forall w1 w2 m1, w = w1 ++ w2 -> run net m0 w1 m1 -> over_bound k m1 = false.
Definition kreach (net : pnet) (k : N) (m0 m : marking) : Prop := exists w, krun net k m0 w m.

(** The number of markings reachable within the bound is at most [n]. *)
Definition space_at_most (net : pnet) (k : N) (m0 : marking) (n : N) : Prop :=
  forall l, NoDup l -> (forall m, In m l -> kreach net k m0 m) -> (N.of_nat (length l) <= n)%N.

(** [v] is the greatest value of [f] over the reachable markings. *)
Definition is_max (reach : marking -> Prop) (f : marking -> N) (v : N) : Prop :=
  (exists m, reach m /\ f m = v) /\ forall m, reach m -> (f m <= v)%N.

(** Shuffling only permutes. *)
Definition shuffles (f : nat -> list nat -> list nat) : Prop := forall n l, Permutation l (f n l).
