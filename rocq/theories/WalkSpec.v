(** Specification vocabulary for the random walk. *)
From Verif Require Import Base NetSpec StoreSpec SearchModel.
Set Implicit Arguments.

(** A run whose markings strictly between the first and the last one are within the token
    bound [k] ([0]: no bound). *)
Definition inner_run (net : pnet) (k : N) (m0 : marking) (w : list nat) (m : marking) : Prop :=
  run net m0 w m /\
  forall w1 w2 m1, w = w1 ++ w2 -> w1 <> [] -> w2 <> [] -> run net m0 w1 m1 -> over_bound k m1 = false.

(** A reported event tells the truth: its query is true in a marking reached by an inner run
    [w], and if [traced] holds, [w] is the trace that was printed. *)
Definition truthful (net : pnet) (k : N) (m0 : marking) (qs : list query) (traced : Prop) (e : event) : Prop :=
  ev_result e = Satisfied /\
  exists q st m w, nth_error qs (ev_query e) = Some q /\ snd (q st m) = true /\
    inner_run net k m0 w m /\ (traced -> ev_trace e = Ok w).

(** No trace with a transition was printed so far. *)
Definition untraced (l : list event) : Prop := forall e, In e l -> ev_trace e = Ok [].
