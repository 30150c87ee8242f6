(** Specification of the interval vectors of trace abstraction refinement. *)
From Verif Require Import Base.
From Coq Require Import Sorted.
Set Implicit Arguments.

(** A range has a lower and an upper bound; the greatest 32-bit number as upper bound means
    that there is none. *)
Definition range := (N * N)%type.
Definition infinite : N := 2 ^ 32 - 1.
Definition in_range (r : range) (v : N) : Prop := (fst r <= v)%N /\ (snd r = infinite \/ (v <= snd r)%N).
(** A vector restricts the places that it mentions. *)
Definition rvec := list (nat * range).
Definition in_vec (l : rvec) (m : nat -> N) : Prop := forall p r, In (p, r) l -> in_range r (m p).

Definition unbounded (r : range) : Prop := fst r = 0%N /\ snd r = infinite.
Definition sound_range (r : range) : Prop := (fst r <= snd r)%N /\ (snd r <= infinite)%N.
(** sorted by place, without repetitions; no range that restricts nothing; no empty range *)
Definition sorted_vec (l : rvec) : Prop := StronglySorted lt (map fst l).
Definition compact_vec (l : rvec) : Prop := forall p r, In (p, r) l -> ~ unbounded r.
Definition sound_vec (l : rvec) : Prop := forall p r, In (p, r) l -> sound_range r.
