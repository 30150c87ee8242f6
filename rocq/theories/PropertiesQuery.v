(** Property theorems about compiling and classifying queries: C13, C14, C27. *)
From Verif Require Import Base BaseLemmas NetSpec NetModel NetProofs NetExamples PqlSyntax PqlSpec PqlModel PqlProofs PushRules PqlRuns
  StoreSpec SearchModel SearchSpec QueueModel SearchMain SearchExamples QueryModel QuerySpec QueryProofs QueryClass QueryLoops.

(** C13.  The condition a fireability proposition is compiled to is true in a marking
    exactly when the transition is enabled there. *)
Theorem C13_fireable : forall net t, layout net -> inhib_pos net -> t < cn_ntrans net ->
  exists c, fireable net t = Ok c /\ atomic c = true /\
    forall m, sat (to_pnet net) m c <-> enabled (net_trans net t) m.
Proof. exact fireable_sat. Qed.
Print Assumptions C13_fireable.
(** ... for a name that stands for several transitions: when one of them is enabled. *)
Theorem C13_fireable_any : forall net ts, layout net -> inhib_pos net -> (forall t, In t ts -> t < cn_ntrans net) ->
  exists c, fireable_any net ts = Ok c /\ atomic c = true /\
    forall m, sat (to_pnet net) m c <-> exists t, In t ts /\ enabled (net_trans net t) m.
Proof. exact fireable_any_sat. Qed.
Print Assumptions C13_fireable_any.
Lemma ex_inhib : inhib_pos ex_net.
Proof. intros iv Hv. vm_compute in Hv. repeat (destruct Hv as [<-|Hv]; [cbn; intros; try discriminate; lia|]). destruct Hv. Qed.
Example C13_case : layout ex_net /\ inhib_pos ex_net /\ 2 < cn_ntrans ex_net /\
  (exists c, fireable ex_net 2 = Ok c /\ c <> CBool true).
Proof.
  split; [exact ex_layout|]. split; [exact ex_inhib|]. split; [vm_compute; lia|]. eexists. split; [vm_compute; reflexivity|discriminate].
Qed.
(** k-safety, quasi-liveness, liveness and stable markings. *)
Theorem C13_k_safe : forall net bound b m, layout net -> (forall m, den m bound = b) ->
  (sat (to_pnet net) m (k_safe net bound) <->
   forall m', reachable (to_pnet net) m m' -> forall p, p < cn_places net -> (Z.of_N (tokens m' p) <= b)%Z).
Proof. exact k_safe_sat. Qed.
Print Assumptions C13_k_safe.
Theorem C13_quasi_live : forall net, layout net -> inhib_pos net -> exists c, quasi_live net = Ok c /\ stf c = true /\
  forall m, sat (to_pnet net) m c <->
    forall t, t < cn_ntrans net -> exists m', reachable (to_pnet net) m m' /\ enabled (net_trans net t) m'.
Proof. exact quasi_live_sat. Qed.
Print Assumptions C13_quasi_live.
Theorem C13_live : forall net, layout net -> inhib_pos net -> exists c, live net = Ok c /\ stf c = true /\
  forall m, sat (to_pnet net) m c <->
    forall t, t < cn_ntrans net -> forall m1, reachable (to_pnet net) m m1 ->
      exists m2, reachable (to_pnet net) m1 m2 /\ enabled (net_trans net t) m2.
Proof. exact live_sat. Qed.
Print Assumptions C13_live.
Theorem C13_stable : forall net m, layout net ->
  (sat (to_pnet net) m (stable net) <->
   exists p, p < cn_places net /\ forall m', reachable (to_pnet net) m m' -> tokens m' p = tokens (cn_init net) p).
Proof. exact stable_sat. Qed.
Print Assumptions C13_stable.
Theorem C13_stable_groups : forall net groups m, layout net ->
  (forall ps, In ps groups -> (sumN (map (tokens (cn_init net)) ps) < 2 ^ 32)%N) ->
  (sat (to_pnet net) m (stable_col net groups) <->
   exists ps, In ps groups /\ forall m', reachable (to_pnet net) m m' ->
     sumN (map (tokens m') ps) = sumN (map (tokens (cn_init net)) ps)).
Proof. exact stable_col_sat. Qed.
Print Assumptions C13_stable_groups.
Example C13_global_case : layout ex_net /\ inhib_pos ex_net /\ (forall m, den m (Lit 3) = 3%Z) /\
  (forall ps, In ps [[0; 1]; [2]] -> (sumN (map (tokens (cn_init ex_net)) ps) < 2 ^ 32)%N).
Proof.
  split; [exact ex_layout|]. split; [exact ex_inhib|]. split; [reflexivity|].
  intros ps [<-|[<-|[]]]; vm_compute; reflexivity.
Qed.

(** Finding: an inhibitor arc of weight 0, which disables its transition for good, is
    compiled to a constraint that always holds. *)
Theorem C13_zero_inhibitor_refuted : exists net c m,
  cn_ntrans net = 1 /\ fireable net 0 = Ok c /\ evaluate (fun _ => true) m c = RTrue /\ ~ enabled (net_trans net 0) m.
Proof.
  exists (mkCnet 1 1 [(0, 1); (1, 1)] [mkInv 0 0 true 0] [] [0%N] [true]). eexists. exists [0%N].
  split; [reflexivity|]. split; [vm_compute; reflexivity|]. split; [vm_compute; reflexivity|].
  intros H. specialize (H (mkArc 0 0%N true)). unfold arc_ok, tokens in H. cbn in H. specialize (H (or_introl eq_refl)). lia.
Qed.
Print Assumptions C13_zero_inhibitor_refuted.

(** C14.  Preparing a reachability query for the search yields a condition without temporal
    operators and a flag; the query is true exactly when some reachable marking satisfies
    the condition (flag unset), or none does (flag set). *)
Theorem C14_prepared_goal : forall c, reach_query c ->
  exists g inv, prepare_for_reachability c = Ok (Some (g, inv)) /\ atomic g = true /\
  forall net m, wf_pnet net ->
    (sat net m c <->
     if (inv : bool) then ~ exists m', reachable net m m' /\ sat net m' g else exists m', reachable net m m' /\ sat net m' g).
Proof. intros c H. exact (prepare_spec c H false). Qed.
Print Assumptions C14_prepared_goal.
(** From query to answer: when the search ends, each reachability query is reported
    satisfied exactly when it is true in the initial marking. *)
Theorem C14_answers : forall net st dist heur cs fuel s b,
  searchable net 0 -> 0 < cn_places net -> strategy_ok st -> heur < length cs ->
  Forall reach_query cs ->
  search net 0 st (map pure_query (map (goal_test net) cs)) dist
    (fun i => printer_handle false false (invariant_of (nth i cs (CBool false))) None) true
    (map (fun _ => Unknown) cs) (map (fun _ => 0%N) cs) heur fuel = Ok (s, b) ->
  forall i c, nth_error cs i = Some c ->
  (sat (to_pnet net) (cn_init net) c /\ nth i (s_res s) Unknown = Satisfied) \/
  (~ sat (to_pnet net) (cn_init net) c /\ nth i (s_res s) Unknown = NotSatisfied).
Proof. exact search_reach_queries. Qed.
Print Assumptions C14_answers.
Definition c14_cs : list cond :=
  [CNot (CEF (CCmp OpLe (Lit 2) (Pl 2))); CNot (CNot (CAG (CNot CDead))); CA (CG (CCmp OpLe (Pl 2) (Lit 0)));
   CE (CF (CAnd [CCmp OpEq (Pl 0) (Lit 1); CConj false [mkCons 1 0 0]]))].
Example C14_case :
  searchable sx_net 0 /\ 0 < cn_places sx_net /\ strategy_ok DFS /\ 0 < length c14_cs /\ Forall reach_query c14_cs /\
  match search sx_net 0 DFS (map pure_query (map (goal_test sx_net) c14_cs)) (fun _ _ => 0%N)
    (fun i => printer_handle false false (invariant_of (nth i c14_cs (CBool false))) None) true
    (map (fun _ => Unknown) c14_cs) (map (fun _ => 0%N) c14_cs) 0 10 with
  | Ok (s, _) => s_res s = [Satisfied; Satisfied; NotSatisfied; Satisfied]
  | _ => False
  end.
Proof.
  split; [apply sx_searchable|]. split; [vm_compute; lia|]. split; [exact I|]. split; [cbn; lia|]. split.
  - repeat (constructor; try reflexivity).
  - vm_compute. reflexivity.
Qed.
(** Finding: a path quantifier over anything but F (for E) or G (for A) makes the preparation
    dereference a null pointer. *)
Theorem C14_prepare_path_refuted : exists c, prepare_for_reachability c = UB.
Proof. exists (CE (CX (CBool true))). reflexivity. Qed.
Print Assumptions C14_prepare_path_refuted.

(** C27.  The classification answers according to the shape of the formula. *)
Theorem C27_isReachability : forall c, is_reachability c = true <-> reach_query c.
Proof. exact is_reachability_spec. Qed.
Print Assumptions C27_isReachability.
Theorem C27_isTemporal : forall c, temporal c = true <-> exists x, temporal_op x /\ occurs x c.
Proof. exact temporal_spec. Qed.
Print Assumptions C27_isTemporal.
Theorem C27_containsNext : forall c, contains_next c = true <-> exists x, next_op x /\ occurs x c.
Proof. exact next_spec. Qed.
Print Assumptions C27_containsNext.
Theorem C27_containsDeadlock : forall c, contains_deadlock c = true <-> occurs CDead c.
Proof. exact deadlock_spec. Qed.
Print Assumptions C27_containsDeadlock.
Example C27_shape_case :
  is_reachability (CNot (CAG (CNot (CAnd [CDead; CBool true])))) = true /\ is_reachability (CAG (CEF CDead)) = false /\
  contains_next (CAnd [CBool true; CNot (CEU (CBool true) (CA (CX CDead)))]) = true /\
  contains_deadlock (CAnd [CBool true; CNot (CEU (CBool true) (CA (CX CDead)))]) = true.
Proof. repeat split; reflexivity. Qed.
(** hasNestedDeadlock is right when it answers yes ... *)
Theorem C27_nested_deadlock_sound : forall c, has_nested_deadlock c = true -> nested_deadlock c.
Proof. exact has_nested_sound. Qed.
Print Assumptions C27_nested_deadlock_sound.
(** ... and exact when no conjunction or disjunction contains another one. *)
Theorem C27_nested_deadlock_partial : forall c, flat c = true -> (has_nested_deadlock c = true <-> nested_deadlock c).
Proof. intros c H. symmetry. apply (flat_nested c H). Qed.
Print Assumptions C27_nested_deadlock_partial.
Example C27_nested_case : flat (CEU (CAnd [CDead; CBool true]) (CNot (COr [CBool false]))) = true /\
  has_nested_deadlock (CEU (CAnd [CDead; CBool true]) (CNot (COr [CBool false]))) = true /\
  flat (CEU (CAnd [CBool true]) CDead) = true /\ has_nested_deadlock (CEU (CAnd [CBool true]) CDead) = false.
Proof. repeat split; reflexivity. Qed.
(** Finding: in general the answer "no" is wrong: an inner conjunction or disjunction resets
    the flag, and a deadlock proposition after it is not seen. *)
Theorem C27_nested_deadlock_refuted : exists c, nested_deadlock c /\ has_nested_deadlock c = false.
Proof.
  exists (CAnd [COr [CBool true; CBool false]; CDead]). split; [|reflexivity].
  exists (CAnd [COr [CBool true; CBool false]; CDead]). split; [exact I|]. split; [constructor|].
  apply occurs_in with (d := CDead); [right; left; reflexivity|constructor].
Qed.
Print Assumptions C27_nested_deadlock_refuted.

(** A query that is not loop-sensitive keeps its truth in every marking when transitions
    are added (or removed) that do not change the marking.  Partial: for formulas in which
    linear-time untils under A occur below an odd number of negations. *)
Theorem C27_loop_sensitive_partial : forall net net', wf_pnet net -> wf_pnet net' -> adds_loops net net' ->
  forall c m, stf c = true -> is_loop_sensitive c = false -> untils_negative c = true ->
  (sat net m c <-> sat net' m c).
Proof. exact loop_insensitive_sat. Qed.
Print Assumptions C27_loop_sensitive_partial.

Definition lp_move : trans := mkTrans [mkArc 0 1 false] [mkArc 1 1 false].
Definition lp_loop : trans := mkTrans [mkArc 0 1 false] [mkArc 0 1 false].
Definition lp_net : pnet := mkPnet 2 [lp_move].
Definition lp_net' : pnet := mkPnet 2 [lp_move; lp_loop].
Lemma lp_wf : wf_pnet lp_net /\ wf_pnet lp_net'.
Proof.
  assert (X : forall t, In t [lp_move; lp_loop] -> wf_trans 2 t).
  { intros t [<-|[<-|[]]]; (split; [|split; [|split]]); cbn.
    all: try (intros a [<-|[]]; cbn; auto with arith; fail).
    all: repeat constructor; intros []. }
  split; intros t Ht; apply X; cbn in *; tauto.
Qed.
Lemma lp_adds : adds_loops lp_net lp_net'.
Proof.
  split.
  - intros m m' ([|[|t]] & tr & E & F); try discriminate E. exists 0, tr. split; [exact E|exact F].
  - intros m m' ([|[|[|t]]] & tr & E & F); try discriminate E.
    + left. exists 0, tr. split; [exact E|exact F].
    + right. injection E as <-. destruct F as (_ & L & F). apply (nth_ext _ _ 0%N 0%N); [exact L|]. intros p Hp. rewrite L in Hp.
      specialize (F p Hp). unfold weight_at, lp_loop, tokens in F. cbn [tr_pre tr_post filter arc_place arc_inhib] in F.
      destruct (Nat.eqb 0 p); cbn [andb negb filter map sumN arc_weight] in F; lia.
Qed.
Definition lp_until : cond := CU (CCmp OpLe (Lit 1) (Pl 0)) (CCmp OpLe (Lit 1) (Pl 1)).
Example C27_loop_case :
  wf_pnet lp_net /\ wf_pnet lp_net' /\ adds_loops lp_net lp_net' /\
  let c := CAnd [CEF (CAG (CCmp OpLe (Lit 1) (Pl 1))); CA (CNot lp_until)] in
  stf c = true /\ is_loop_sensitive c = false /\ untils_negative c = true.
Proof. split; [apply lp_wf|]. split; [apply lp_wf|]. split; [exact lp_adds|]. repeat split; reflexivity. Qed.
(** Finding: without the last condition the claim is false.  The flag that counts negations
    is not restored after a negation, so a later operand is classified with the wrong
    polarity: A (not (p0 >= 5 U p0 >= 5) and (p0 >= 1 U p1 >= 1)) is said not to depend on
    loops, but adding a transition that consumes and returns a token of p0 changes its truth. *)
Definition lp_query : cond :=
  CA (CAnd [CNot (CU (CCmp OpLe (Lit 5) (Pl 0)) (CCmp OpLe (Lit 5) (Pl 0))); lp_until]).
Theorem C27_loop_sensitive_refuted : exists net net' c m,
  wf_pnet net /\ wf_pnet net' /\ adds_loops net net' /\ stf c = true /\
  is_loop_sensitive c = false /\ sat net m c /\ ~ sat net' m c.
Proof.
  exists lp_net, lp_net', lp_query, [1; 0]%N.
  split; [apply lp_wf|]. split; [apply lp_wf|]. split; [exact lp_adds|]. split; [reflexivity|]. split; [reflexivity|].
  assert (Em : enabled lp_move [1; 0]%N) by (intros a [<-|[]]; unfold arc_ok, tokens; cbn; lia).
  split.
  - intros pi M P rho (Mr & Pr). rewrite P in Pr.
    assert (R1 : rho 1 = [0; 1]%N).
    { destruct (Mr 0) as [([|[|t]] & tr & E & F)|(Hd & _)]; try discriminate E.
      - injection E as <-. rewrite Pr in F. destruct F as (_ & L & F). destruct (rho 1) as [|a [|b [|c l]]]; try discriminate L.
        assert (F0 := F 0 (le_S _ _ (le_n 1))). assert (F1 := F 1 (le_n 2)). unfold tokens, weight_at in F0, F1. cbn in F0, F1.
        destruct F0 as (_ & ->), F1 as (_ & ->). reflexivity.
      - exfalso. rewrite Pr in Hd. exact (Hd 0 lp_move eq_refl Em). }
    assert (R2 : forall i, rho (S i) = [0; 1]%N).
    { induction i as [|i IH]; [exact R1|]. destruct (Mr (S i)) as [([|[|t]] & tr & E & F)|(_ & E)]; try discriminate E; [|congruence].
      injection E as <-. rewrite IH in F. destruct F as (F & _). specialize (F _ (or_introl eq_refl)). unfold arc_ok, tokens in F. cbn in F. lia. }
    apply holds_and. intros c [<-|[<-|[]]].
    + intros (i & Hi & _). cbn [holds] in Hi. unfold shift in Hi. rewrite Nat.add_0_r in Hi. destruct i as [|i]; [rewrite Pr in Hi|rewrite R2 in Hi]; vm_compute in Hi; apply Hi; reflexivity.
    + exists 1. split.
      * cbn [holds]. unfold shift; cbn [Nat.add]. rewrite R1. vm_compute. discriminate.
      * intros j Hj. assert (j = 0) by lia. subst j. cbn [holds]. unfold shift; cbn [Nat.add]. rewrite Pr. vm_compute. discriminate.
  - intros H. assert (Mx : maximal lp_net' (fun _ => [1; 0]%N)).
    { intros i. left. exists 1, lp_loop. split; [reflexivity|]. split; [intros a [<-|[]]; unfold arc_ok, tokens; cbn; lia|].
      split; [reflexivity|]. intros [|[|p]] Hp; [| |cbn in Hp; lia]; vm_compute; split; try reflexivity; discriminate. }
    specialize (H _ Mx eq_refl (fun _ => [1; 0]%N) (conj Mx eq_refl)). rewrite holds_and in H.
    specialize (H lp_until (or_intror (or_introl eq_refl))). destruct H as (i & Hi & _). vm_compute in Hi. apply Hi. reflexivity.
Qed.
Print Assumptions C27_loop_sensitive_refuted.
