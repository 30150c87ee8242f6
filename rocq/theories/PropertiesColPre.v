(** Property theorems about the preemptive firing of transitions in coloured nets (C48). *)
From Verif Require Import Base BaseLemmas ColSyntax ColSpec ColModel ColExamples ColRedModel ColRedSpec ColRedExamples ColPreModel ColPreSpec ColPreMain ColPreExamples.

(** C48.  Whatever a query asks about a reachable marking, the tokens on its places and which
    of its transitions can fire, has the same answer in the net and in the reduced net, if the
    transitions that may be fired take one token of any colour and put none back where they
    take it.  [fired] are transitions fired before, the time can be up at any moment, and the
    cleared list, if it can be read, still has its element. *)
Theorem C48_answers_partial : forall used_t used_p same timeout cleared n fired r' fired', (forall t u, cleared t = Ok u -> u = t) ->
  cpn_ok n -> arcs_once n -> same_ok n same -> moves_any used_t used_p n -> preemptive used_t used_p same timeout cleared (mkR n [] []) fired = Ok (r', fired') ->
  same_answers used_t used_p (mkR n [] []) r'.
Proof. exact preemptive_same. Qed.
Print Assumptions C48_answers_partial.

(** A net in which two tokens are moved, and the place and the transition removed. *)
Example C48_answers_case : cpn_ok mz /\ arcs_once mz /\ same_ok mz psame /\ moves_any (fun _ => false) pused mz /\
  exists r, preemptive (fun _ => false) pused psame (fun _ => false) (fun t => Ok t) (mkR mz [] []) [] = Ok (r, [0]) /\ r_trs r = [0] /\ r_pls r = [0].
Proof. split; [exact mz_ok|]. split; [exact mz_once|]. split; [apply psame_ok|]. split; [exact mz_any|exact mz_run]. Qed.

(** Refuted: a token that can never be on a place of the query is not there in the reduced
    net either.  Nothing checks that the transition can take the colours of the tokens it is
    said to move: with the constant a on its arcs, the token b is moved. *)
Theorem C48_tokens_invented_refuted : exists n used_p r' fired, cpn_ok n /\ arcs_once n /\ same_ok n psame /\
  (forall cleared, preemptive (fun _ => false) used_p psame (fun _ => false) cleared (mkR n [] []) [] = Ok (r', fired)) /\
  exists p, used_p p = true /\ (forall M v, rreach (mkR n [] []) M -> M p v = 0%N) /\ exists M v, rreach r' M /\ M p v = 1%N.
Proof.
  exists iz, pused, iz', [0]. split; [exact iz_ok|]. split; [exact iz_once|]. split; [apply psame_ok|]. split; [exact iz_run|].
  exists 2. split; [reflexivity|]. split; [intros M v R; rewrite (iz_never M R); reflexivity|]. destruct iz_reached as (M & R & E). exists M, (VE 1). auto.
Qed.
Print Assumptions C48_tokens_invented_refuted.

(** Refuted: a token that can be on a place of the query can be there in the reduced net as
    well.  If the transition puts tokens back on the place it takes them from, these are lost
    when the place is cleared. *)
Theorem C48_tokens_lost_refuted : exists n used_p r' fired, cpn_ok n /\ arcs_once n /\ same_ok n psame /\
  (forall cleared, preemptive (fun _ => false) used_p psame (fun _ => false) cleared (mkR n [] []) [] = Ok (r', fired)) /\
  exists p, used_p p = true /\ (forall M v, rreach r' M -> M p v = 0%N) /\ exists M v, rreach (mkR n [] []) M /\ M p v = 1%N.
Proof.
  exists lz, pused, lz', [0]. split; [exact lz_ok|]. split; [exact lz_once|]. split; [apply psame_ok|]. split; [exact lz_run|].
  exists 2. split; [reflexivity|]. split; [intros M v R; rewrite (lz_never M R); reflexivity|]. destruct lz_reached as (M & R & E). exists M, (VE 0). auto.
Qed.
Print Assumptions C48_tokens_lost_refuted.

(** Refuted: the rule never leads to undefined behaviour.  Whenever the place has no producer,
    its list of consumers is read after it has been cleared. *)
Theorem C48_no_undefined_refuted : exists n, cpn_ok n /\ arcs_once n /\
  preemptive (fun _ => false) pused psame (fun _ => false) (fun _ => UB) (mkR n [] []) [] = UB.
Proof. exists mz. split; [exact mz_ok|]. split; [exact mz_once|exact mz_ub]. Qed.
Print Assumptions C48_no_undefined_refuted.
