(** Property theorems about the removal of dead transitions from coloured nets (C46). *)
From Verif Require Import Base BaseLemmas ColSyntax ColSpec ColModel ColExamples ColRedModel ColRedSpec ColRedProofs ColRedMain ColRedTotal ColRedExamples.

(** C46.  The net after the rule has the same reachable markings, with the same steps from
    each of them, and no transition of the query is removed, whatever the query uses, whenever
    the time is up and with every test on the multisets of variables; provided that every
    transition that takes tokens from a place not in the query also puts tokens on it. *)
Theorem C46_dead_transitions_partial : forall used_t used_p same subset vs timeout n st sp r',
  cpn_ok n -> arcs_once n -> vars_ok n vs -> same_ok n same -> puts_back n used_p ->
  dead_transitions used_t used_p same subset vs timeout (mkR n st sp) = Ok r' ->
  same_runs (mkR n st sp) r' /\ forall t, In t (r_trs r') -> In t st \/ used_t t = false.
Proof. exact dead_transitions_same. Qed.
Print Assumptions C46_dead_transitions_partial.

(** A net from which two transitions and a place are removed. *)
Example C46_dead_transitions_case : cpn_ok dz /\ arcs_once dz /\ vars_ok dz dvs /\ same_ok dz dsame /\ puts_back dz (fun _ => false) /\
  exists r, dead_transitions (fun _ => false) (fun _ => false) dsame (fun _ _ => false) dvs (fun _ => false) (mkR dz [] []) = Ok r /\ r_trs r = [2; 1] /\ r_pls r = [1].
Proof. split; [exact dz_ok|]. split; [exact dz_once|]. split; [exact dz_vs|]. split; [apply dsame_ok|]. split; [exact dz_back|exact dz_run]. Qed.

(** Refuted: the same without the condition.  The number of dead consumers is compared with
    the number of producers of the place, not with the number of its consumers: a place is
    removed though a transition still depends on it.  A token that can never be on place 2,
    the only place of the query, can be there in the reduced net. *)
Theorem C46_dead_transitions_refuted : exists n used_p r', cpn_ok n /\ arcs_once n /\ vars_ok n dvs /\ same_ok n dsame /\
  dead_transitions (fun _ => false) used_p dsame (fun _ _ => false) dvs (fun _ => false) (mkR n [] []) = Ok r' /\
  exists p, used_p p = true /\ (forall M v, rreach (mkR n [] []) M -> M p v = 0%N) /\ exists M v, rreach r' M /\ M p v = 1%N.
Proof.
  exists bz, bused, bz'. split; [exact bz_ok|]. split; [exact bz_once|]. split; [exact bz_vs|]. split; [apply dsame_ok|]. split; [exact bz_run|].
  exists 2. split; [reflexivity|]. split; [intros M v R; rewrite (bz_never M R); reflexivity|]. destruct bz_reached as (M & R & E). exists M, (VE 1). auto.
Qed.
Print Assumptions C46_dead_transitions_refuted.

(** C46, for every net: the rule ends without an error, removes nothing the query is about,
    and every run of the net is a run of the reduced net, with the same tokens on the places
    that are left. *)
Theorem C46_no_run_lost : forall used_t used_p same subset vs timeout n, cpn_ok n -> arcs_once n -> vars_ok n vs -> same_ok n same ->
  exists r', dead_transitions used_t used_p same subset vs timeout (mkR n [] []) = Ok r' /\ covers (mkR n [] []) r' /\
    (forall t, In t (r_trs r') -> used_t t = false) /\ (forall p, In p (r_pls r') -> used_p p = false).
Proof. exact dead_transitions_covers. Qed.
Print Assumptions C46_no_run_lost.

(** The net of the refutation meets the hypotheses. *)
Example C46_no_run_lost_case : cpn_ok bz /\ arcs_once bz /\ vars_ok bz dvs /\ same_ok bz dsame /\
  dead_transitions (fun _ => false) bused dsame (fun _ _ => false) dvs (fun _ => false) (mkR bz [] []) = Ok bz' /\ r_trs bz' = [1] /\ r_pls bz' = [0].
Proof. split; [exact bz_ok|]. split; [exact bz_once|]. split; [exact bz_vs|]. split; [apply dsame_ok|]. split; [exact bz_run|]. split; reflexivity. Qed.
