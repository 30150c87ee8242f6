(** Property theorems about the removal of what is irrelevant from coloured nets (C49). *)
From Verif Require Import Base BaseLemmas ColSyntax ColSpec ColModel ColExamples ColRedModel ColRedSpec ColRedExamples ColRdpSpec ColPreSpec ColRelModel ColRelSpec ColRelMain ColRelTotal ColRelExamples.

(** C49.  The tokens that can be on the places of the query are the same in the net and in the
    reduced net, for nets without inhibitor arcs. *)
Theorem C49_tokens_partial : forall used_t used_p n r', cpn_ok n -> arcs_once n -> cn_inh n = [] ->
  relevance used_t used_p (mkR n [] []) = Ok r' -> same_tokens used_p n r'.
Proof. exact relevance_tokens. Qed.
Print Assumptions C49_tokens_partial.

(** A net from which a transition and a place are removed. *)
Example C49_tokens_case : cpn_ok rz /\ arcs_once rz /\ cn_inh rz = [] /\
  exists r, relevance (fun _ => false) (Nat.eqb 0) (mkR rz [] []) = Ok r /\ r_trs r = [2] /\ r_pls r = [2].
Proof. split; [exact rz_ok|]. split; [exact rz_once|]. split; [reflexivity|exact rz_place]. Qed.

(** C49 with the transitions of the query: whatever the query asks about a reachable marking has
    the same answer in both nets, if no transition of the query has an arc to or from a place of
    the query or to or from an input place of another transition of the query. *)
Theorem C49_answers_partial : forall used_t used_p n r', cpn_ok n -> arcs_once n -> cn_inh n = [] -> apart used_t used_p n ->
  (forall p, used_p p = true -> p < length (cn_pls n)) -> (forall t, used_t t = true -> t < length (cn_trs n)) ->
  relevance used_t used_p (mkR n [] []) = Ok r' -> same_answers used_t used_p (mkR n [] []) r'.
Proof. exact relevance_answers. Qed.
Print Assumptions C49_answers_partial.

(** A query about a single transition. *)
Example C49_answers_case : cpn_ok rz /\ arcs_once rz /\ cn_inh rz = [] /\ apart (Nat.eqb 0) (fun _ => false) rz /\
  (forall t, Nat.eqb 0 t = true -> t < length (cn_trs rz)) /\
  exists r, relevance (Nat.eqb 0) (fun _ => false) (mkR rz [] []) = Ok r /\ r_trs r = [2] /\ r_pls r = [2].
Proof.
  split; [exact rz_ok|]. split; [exact rz_once|]. split; [reflexivity|]. split; [exact (single_apart rz 0)|]. split; [|exact rz_single].
  intros t U. apply Nat.eqb_eq in U. subst t. cbn. lia.
Qed.

(** Refuted: which transitions of the query can fire is the same as well.  The input places of a
    transition of the query are treated as places of the query only if the transition has not
    been found relevant before: a transition that takes tokens from such a place is removed.  In
    the net a marking can be reached in which t0 can fire and t1 cannot, in the reduced net not:
    the answer to EF (t0 can fire and t1 cannot) changes. *)
Theorem C49_fireable_refuted : exists n used_t r' t0 t1, cpn_ok n /\ arcs_once n /\ cn_inh n = [] /\ used_t t0 = true /\ used_t t1 = true /\
  relevance used_t (fun _ => false) (mkR n [] []) = Ok r' /\
  (exists M, rreach (mkR n [] []) M /\ fireable (mkR n [] []) M t0 /\ ~ fireable (mkR n [] []) M t1) /\
  forall M, rreach r' M -> fireable r' M t0 -> fireable r' M t1.
Proof.
  exists rz, rused, rz', 0, 1. split; [exact rz_ok|]. split; [exact rz_once|]. split; [reflexivity|]. split; [reflexivity|]. split; [reflexivity|]. split; [exact rz_run|]. split; [exact rz_lost|exact rz_never].
Qed.
Print Assumptions C49_fireable_refuted.

(** C49: the rule ends without an error, with inhibitor arcs as well, if no variable has tuples
    as values (see C47_no_error_refuted for the others). *)
Theorem C49_ends_partial : forall used_t used_p n, cpn_ok n -> plain_vars n -> exists r', relevance used_t used_p (mkR n [] []) = Ok r'.
Proof. exact relevance_total. Qed.
Print Assumptions C49_ends_partial.

Example C49_ends_case : cpn_ok hz /\ plain_vars hz /\ relevance (fun _ => false) (Nat.eqb 1) (mkR hz [] []) = Ok hz'.
Proof. split; [exact hz_ok|]. split; [exact hz_plain|exact hz_run]. Qed.

(** Refuted: the same tokens can be on the places of the query if there are inhibitor arcs.  A
    transition that takes tokens from an inhibiting place and puts some back is removed if the
    weights of its arcs are the same; but the weight of 2'x - 1'y is 1 and two tokens are taken
    if x and y are different. *)
Theorem C49_inhibitor_refuted : exists n used_p r', cpn_ok n /\ arcs_once n /\ plain_vars n /\ relevance (fun _ => false) used_p (mkR n [] []) = Ok r' /\
  exists p, used_p p = true /\ (forall M v, rreach r' M -> M p v = 0%N) /\ exists M v, rreach (mkR n [] []) M /\ M p v = 1%N.
Proof.
  exists hz, (Nat.eqb 1), hz'. split; [exact hz_ok|]. split; [exact hz_once|]. split; [exact hz_plain|]. split; [exact hz_run|].
  exists 1. split; [reflexivity|]. split; [intros M v R; rewrite (hz_never M R); reflexivity|]. destruct hz_reached as (M & R & E). exists M, (VE 0). auto.
Qed.
Print Assumptions C49_inhibitor_refuted.

(** Refuted: C49_answers_partial with inhibitor arcs, even for a query about a single transition.
    The places that inhibit a transition of the query are not treated as places of the query: the
    transitions that only put tokens there are removed.  In the reduced net t can always fire, in
    the net it cannot: the answer to AG (t can fire) changes. *)
Theorem C49_inhibited_refuted : exists n t r', cpn_ok n /\ arcs_once n /\ apart (Nat.eqb t) (fun _ => false) n /\ t < length (cn_trs n) /\
  relevance (Nat.eqb t) (fun _ => false) (mkR n [] []) = Ok r' /\
  (exists M, rreach (mkR n [] []) M /\ ~ fireable (mkR n [] []) M t) /\ forall M, rreach r' M -> fireable r' M t.
Proof.
  exists qz, 0, qz'. split; [exact qz_ok|]. split; [exact qz_once|]. split; [exact (single_apart qz 0)|]. split; [cbn; lia|]. split; [exact qz_run|]. split; [exact qz_blocked|exact qz_always].
Qed.
Print Assumptions C49_inhibited_refuted.
