(** Property theorems about trace replay: C26. *)
From Verif Require Import Base BaseLemmas NetSpec NetModel NetProofs StoreProofs SearchMain SearchExamples ReplaySpec ReplayModel ReplayProofs.

(** C26.  A trace that is replayed without error is right: up to its first deadlock entry it
    is a run from the initial marking ending in a deadlock, or it is a run that returns to
    the marking of its loop tag; listed tokens agree with the arc weights. *)
Theorem C26_accepted_is_run : forall net pnames tnames dl ltl l,
  layout net -> 0 < cn_places net -> length (cn_init net) = cn_places net -> fits32 (cn_init net) ->
  NoDup pnames -> length pnames = cn_places net -> NoDup tnames -> length tnames = cn_ntrans net ->
  (forall t tr a, nth_error (pn_trans (to_pnet net)) t = Some tr -> In a (tr_pre tr) -> arc_inhib a = false -> (0 < arc_weight a)%N) ->
  readable pnames l -> (ltl = true -> In TLoop l) ->
  replay net dl pnames tnames ltl l = Ok true -> right (to_pnet net) pnames tnames dl (cn_init net) l.
Proof. exact replay_accepts. Qed.
Print Assumptions C26_accepted_is_run.
(** Every such trace is accepted, if no reachable marking has 2^32-1 tokens in a place. *)
Theorem C26_run_is_accepted : forall net pnames tnames dl ltl l,
  layout net -> 0 < cn_places net -> length (cn_init net) = cn_places net ->
  NoDup pnames -> length pnames = cn_places net -> NoDup tnames -> length tnames = cn_ntrans net ->
  (forall t tr a, nth_error (pn_trans (to_pnet net)) t = Some tr -> In a (tr_pre tr) -> arc_inhib a = false -> (0 < arc_weight a)%N) ->
  (forall m, reachable (to_pnet net) (cn_init net) m -> forall p, (tokens m p < 2 ^ 32 - 1)%N) ->
  readable pnames l -> (ltl = true -> In TLoop l) ->
  right (to_pnet net) pnames tnames dl (cn_init net) l -> replay net dl pnames tnames ltl l = Ok true.
Proof. exact replay_complete. Qed.
Print Assumptions C26_run_is_accepted.

Definition rx_pn : list nat := [10; 11; 12].
Definition rx_tn : list nat := [20; 21].
Definition rx_trace : list tnode := [TTrans (Some 20) [10; 11]; TLoop; TTrans (Some 21) []; TTrans (Some 20) []].
Lemma rx_weights : forall t tr a, nth_error (pn_trans (to_pnet sx_net)) t = Some tr -> In a (tr_pre tr) -> arc_inhib a = false -> (0 < arc_weight a)%N.
Proof.
  intros t tr a Ht Ha _. destruct t as [|[|[|t]]]; vm_compute in Ht; try discriminate Ht; injection Ht as <-.
  - destruct Ha as [<-|[<-|[]]]; reflexivity.
  - destruct Ha as [<-|[]]; reflexivity.
Qed.
Example C26_case :
  layout sx_net /\ 0 < cn_places sx_net /\ length (cn_init sx_net) = cn_places sx_net /\ fits32 (cn_init sx_net) /\
  NoDup rx_pn /\ length rx_pn = cn_places sx_net /\ NoDup rx_tn /\ length rx_tn = cn_ntrans sx_net /\
  readable rx_pn rx_trace /\ In TLoop rx_trace /\
  (forall m, reachable (to_pnet sx_net) (cn_init sx_net) m -> forall p, (tokens m p < 2 ^ 32 - 1)%N) /\
  replay sx_net 99 rx_pn rx_tn true rx_trace = Ok true /\
  replay sx_net 99 rx_pn rx_tn true (rx_trace ++ [TTrans (Some 20) []]) = Ok false /\
  replay sx_net 99 rx_pn rx_tn true (rx_trace ++ [TTrans (Some 21) []]) = Ok false /\
  replay sx_net 99 rx_pn rx_tn true [TTrans (Some 20) [10]; TLoop] = Ok false.
Proof.
  split; [exact sx_layout|]. split; [vm_compute; lia|]. split; [vm_compute; reflexivity|].
  split. { apply (proj1 (mark_ok_fits sx_net (cn_init sx_net)) sx_init). }
  split. { repeat constructor; cbn; intuition discriminate. }
  split; [reflexivity|]. split. { repeat constructor; cbn; intuition discriminate. }
  split; [reflexivity|]. split.
  { intros n [<-|[<-|[<-|[<-|[]]]]]; cbn [rx_pn]; try exact I; (split; [discriminate|]); split; try reflexivity; cbn; intuition. }
  split; [right; left; reflexivity|]. split.
  { intros m (w & R) p.
    assert (X : In m sx_marks).
    { assert (G : forall a w b, run (to_pnet sx_net) a w b -> In a sx_marks -> In b sx_marks).
      { intros a w0 b Hrun. induction Hrun as [|a t b w0 c S Hrun IH]; [auto|]. intros Ha. apply IH.
        destruct S as (tr & E & F). destruct t as [|[|[|t]]]; vm_compute in E; try discriminate E; injection E as <-; destruct F as (F0 & F1 & F2).
        - destruct Ha as [<-|[<-|[]]].
          + right. left. destruct b as [|x [|y [|z [|? ?]]]]; try discriminate F1.
            destruct (F2 0) as (_ & G0); [cbn; lia|]. destruct (F2 1) as (_ & G1); [cbn; lia|]. destruct (F2 2) as (_ & G2); [cbn; lia|].
            unfold tokens, weight_at in G0, G1, G2. cbn in G0, G1, G2. subst. reflexivity.
          + exfalso. specialize (F0 _ (or_intror (or_introl eq_refl))). unfold arc_ok, tokens in F0. cbn in F0. lia.
        - destruct Ha as [<-|[<-|[]]].
          + exfalso. specialize (F0 _ (or_introl eq_refl)). unfold arc_ok, tokens in F0. cbn in F0. lia.
          + left. destruct b as [|x [|y [|z [|? ?]]]]; try discriminate F1.
            destruct (F2 0) as (_ & G0); [cbn; lia|]. destruct (F2 1) as (_ & G1); [cbn; lia|]. destruct (F2 2) as (_ & G2); [cbn; lia|].
            unfold tokens, weight_at in G0, G1, G2. cbn in G0, G1, G2. subst. reflexivity. }
      apply (G _ _ _ R). left. reflexivity. }
    destruct X as [<-|[<-|[]]]; destruct p as [|[|[|p]]]; unfold tokens; cbn; try lia; destruct p; lia. }
  repeat split; vm_compute; reflexivity.
Qed.

(** Findings.  What follows a deadlock entry is not looked at (an assertion excludes it in
    debug builds only): the trace below is accepted, although no transition can fire. *)
Definition rx_dead : cnet := mkCnet 1 1 [(0, 1); (1, 1)] [mkInv 0 1 false (-1)] [0; 1] [0%N] [true; true].
Theorem C26_after_deadlock_refuted : exists net pnames tnames dl l,
  replay net dl pnames tnames false l = Ok true /\
  exists l1 id ps l2, l = l1 ++ TTrans (Some id) ps :: l2 /\ In id tnames /\ forall t tr, nth_error (pn_trans (to_pnet net)) t = Some tr -> ~ enabled tr (cn_init net).
Proof.
  exists rx_dead, [10], [20], 99, [TDead []; TTrans (Some 20) []]. split; [vm_compute; reflexivity|].
  exists [TDead []], 20, [], []. split; [reflexivity|]. split; [left; reflexivity|].
  intros [|[|t]] tr E; vm_compute in E; try discriminate E. injection E as <-. intros H.
  specialize (H _ (or_introl eq_refl)). unfold arc_ok, tokens in H. cbn in H. lia.
Qed.
Print Assumptions C26_after_deadlock_refuted.
(** A loop tag at the end of the trace satisfies the check for LTL traces, although the run
    neither returns to an earlier marking nor ends in a deadlock. *)
Theorem C26_loop_at_end_refuted : exists net pnames tnames dl l,
  replay net dl pnames tnames true (l ++ [TLoop]) = Ok true /\ l <> [] /\
  exists m, plays (to_pnet net) pnames tnames dl (cn_init net) l m /\ m <> cn_init net /\ ~ dead (to_pnet net) m.
Proof.
  exists sx_net, rx_pn, rx_tn, 99, [TTrans (Some 20) []]. split; [vm_compute; reflexivity|]. split; [discriminate|].
  exists [1; 0; 1]%N. split; [|split; [vm_compute; discriminate|]].
  - eapply plays_fire with (t := 0); [discriminate|reflexivity|vm_compute; reflexivity| |left; reflexivity|constructor].
    split.
    + intros a [<-|[<-|[]]]; unfold arc_ok, tokens; vm_compute; discriminate.
    + split; [reflexivity|]. intros [|[|[|p]]] Hp; try (vm_compute; split; [discriminate|reflexivity]). vm_compute in Hp. lia.
  - intros H. eapply (H 1); [vm_compute; reflexivity|]. intros a [<-|[]]; unfold arc_ok, tokens; vm_compute; discriminate.
Qed.
Print Assumptions C26_loop_at_end_refuted.
