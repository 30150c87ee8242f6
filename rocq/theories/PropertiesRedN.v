(** C22: sequences of all reduction rules. *)
From Verif Require Import Base NetSpec BuilderModel RedSpec RedCandN RedMainN RedExamplesN.

(** Any sequence of the rules, including those that make new transitions, at any candidates and in
    any order, stopped anywhere. *)
Theorem C22_sequence_all : forall inq s s', good (fst s) -> free (fst s) (snd s) -> reduced_all inq s s' ->
  good (fst s') /\ free (fst s') (snd s') /\ same_views inq (fst s) (fst s').
Proof. exact reduced_all_ok. Qed.
Print Assumptions C22_sequence_all.
