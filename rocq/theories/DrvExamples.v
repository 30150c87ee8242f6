(** Concrete runs of the main function. *)
From Verif Require Import Base BaseLemmas NetSpec NetModel NetProofs PqlSyntax PqlSpec PqlModel PqlProofs PqlRuns QuerySpec QueryModel QueryProofs
  StoreSpec StoreProofs SearchSpec SearchProofs SearchMain SearchExamples StubSpec StubModel StubProofs StubMain LtlSpec LtlModel LtlMain LtlQuerySpec LtlQueryModel LtlQueryProofs LtlQueryExamples
  CtlProofs CtlNet CtlFrag CtlMain SearchModel BuilderModel BuilderSpec BuilderMain TarModel TarSpec TarMain TarExamples CmpModel CmpSpec CmpFrag CmpProofs CmpSearch CmpMain CmpExamples SynSpec SynModel SynMain SynExamples QueueModel
  DrvModel DrvSpec DrvProofs DrvMain DrvSearch DrvTool.

(** Default options, with -q 0 -r 0. *)
Definition dx_opts : dopts := mkO false false false false true false false true true true false.
Definition dx_ctl : cnet -> nat -> cond -> res bool :=
    (fun _ i q => ctl_main (fun pos goals handle => search_reach sx_net 0 false false DFS (fun _ _ => 0%N) 0 50 goals handle)
       (fun pos x => ltl_solve CompFull (fun _ => false) true (fun _ => g_not) (net_deadb sx_net) (fun aut => ndfs_check aut (fun _ m _ => net_stream sx_net m) 0 50 true (cn_init sx_net)) x)
       (fun pos x => ctl_single_solve sx_net x (fun i => i) (fun n => n) 90) sx_net false q).
Definition dx_run (qs : list dq) : out :=
  driver dx_opts (map (push_query sx_net 30)) (fun _ _ => Throw) dx_ctl
    (fun _ _ _ => Throw) (run_synth (fun _ => fifo) 60) (fun _ _ => false) (fun n => run_search DFS (fun _ _ => 0%N) 0 50 n) (fun _ _ _ _ => ([], Throw)) sx_net qs.
(** a query for the CTL engine, three for the search, one that the initial marking decides *)
Definition dx_queries : list dq :=
  [QPlain cp_query; QPlain (CEF (cp_crit 1)); QPlain (CAG (CNot (cp_crit 2))); QPlain (CEF (cp_crit 2)); QPlain (CNot (cp_crit 1))].
Definition dx_control : dq := QControl (CAG (CNot (cp_crit 1))).

Lemma sx_free : forall m, reachable (to_pnet sx_net) (cn_init sx_net) m -> ~ exists t, controllable sx_net t = true /\ step (to_pnet sx_net) m t m.
Proof. apply no_idle_free; vm_compute; reflexivity. Qed.
Lemma sx_small : (N.of_nat (cn_ntrans sx_net) < 2 ^ 32)%N.
Proof. vm_compute. reflexivity. Qed.

Lemma no_ltl : forall r, forallb (fun x => negb (ltl_shape x)) (subs r) = true -> forall tr x, occurs x r -> ltl_shape x = true -> translates tr (SNot (fst (to_spot CompFull (fun _ => false) true (fst (to_ltl x)) []))).
Proof.
  intros r H tr x Ho Hx. apply subs_occurs in Ho. rewrite forallb_forall in H. apply H in Ho. rewrite Hx in Ho. discriminate Ho.
Qed.
Lemma dx_plain : forall c, In (QPlain c) dx_queries ->
  exists r, ctl c = true /\ in_range c = true /\ push (net_deadb sx_net) (cn_init sx_net) true 30 false false c = Ok r /\
    forall x, occurs x r -> ltl_shape x = true -> translates (fun _ => g_not) (SNot (fst (to_spot CompFull (fun _ => false) true (fst (to_ltl x)) []))).
Proof.
  intros c H. cbn [dx_queries In] in H.
  assert (Y : forall c r, ctl c = true -> in_range c = true -> push (net_deadb sx_net) (cn_init sx_net) true 30 false false c = Ok r -> forallb (fun x => negb (ltl_shape x)) (subs r) = true ->
    exists r, ctl c = true /\ in_range c = true /\ push (net_deadb sx_net) (cn_init sx_net) true 30 false false c = Ok r /\
    forall x, occurs x r -> ltl_shape x = true -> translates (fun _ => g_not) (SNot (fst (to_spot CompFull (fun _ => false) true (fst (to_ltl x)) [])))).
  { intros c0 r A B D E. exists r. split; [exact A|]. split; [exact B|]. split; [exact D|]. apply no_ltl. exact E. }
  destruct H as [E|[E|[E|[E|[E|[]]]]]]; injection E as <-.
  - exists cp_pushed. split; [vm_compute; reflexivity|]. split; [vm_compute; reflexivity|]. split; [vm_compute; reflexivity|]. exact cp_translates.
  - eapply Y; vm_compute; reflexivity.
  - eapply Y; vm_compute; reflexivity.
  - eapply Y; vm_compute; reflexivity.
  - eapply Y; vm_compute; reflexivity.
Qed.
Lemma dx_parts : forall qs, (forall c, In (QPlain c) qs -> In (QPlain c) dx_queries) ->
  parts_right dx_opts (map (push_query sx_net 30)) (fun _ _ => Throw) dx_ctl (fun _ _ _ => Throw) (run_synth (fun _ => fifo) 60)
    (fun n => run_search DFS (fun _ _ => 0%N) 0 50 n) (fun _ _ _ _ => ([], Throw)) sx_net qs.
Proof.
  intros qs Hqs. unfold dx_ctl. apply tool_parts with (st := DFS).
  - exact (sx_searchable 0).
  - exact sx_places.
  - exact sx_overflow.
  - exact I.
  - reflexivity.
  - reflexivity.
  - reflexivity.
  - intros c H. destruct (dx_plain c (Hqs c H)) as (r & A & B & D & _). exists r. auto.
  - intros _. split; [exact sx_small|exact sx_free].
  - intros i c r b H Hpu E. destruct (dx_plain c (Hqs c H)) as (r' & H1 & H2 & H3 & H4). rewrite Hpu in H3. injection H3 as <-.
    pose proof (sx_searchable 0) as (L & _ & Hi & _). apply mark_ok_fits in Hi. destruct Hi as (X & Y). destruct (push_ok sx_net 30 c r L sx_places X Y sx_overflow H1 H2 Hpu) as (_ & _ & Z). rewrite Z.
    eapply (answer_ok sx_net DFS (fun _ _ _ => 0%N) (fun _ => 0) (fun _ => 50) CompFull (fun _ => false) true (fun _ => g_not) (fun _ aut => ndfs_check aut (fun _ m _ => net_stream sx_net m) 0 50 true (cn_init sx_net))
      (fun _ i => i) (fun _ n => n) (fun _ => 90) false 30 c r b); [exact (sx_searchable 0)|exact sx_places|exact sx_overflow|exact I|exact H1|exact H2|exact Hpu|exact H4|intros _ aut; apply sx_answers|exact E].
Qed.
Lemma dx_start : start_ok sx_net.
Proof. apply (start sx_net (sx_searchable 0) sx_places). Qed.

Lemma dx_case : searchable sx_net 0 /\ 0 < cn_places sx_net /\ no_overflow sx_net /\
  (forall c, In (QPlain c) dx_queries -> exists r, ctl c = true /\ in_range c = true /\ push (net_deadb sx_net) (cn_init sx_net) true 30 false false c = Ok r /\
    forall x, occurs x r -> ltl_shape x = true -> translates (fun _ => g_not) (SNot (fst (to_spot CompFull (fun _ => false) true (fst (to_ltl x)) [])))) /\
  ((N.of_nat (cn_ntrans sx_net) < 2 ^ 32)%N /\ forall m, reachable (to_pnet sx_net) (cn_init sx_net) m -> ~ exists t, controllable sx_net t = true /\ step (to_pnet sx_net) m t m) /\
  (forall aut, answer_right (to_pnet sx_net) (cn_init sx_net) aut 0 (ndfs_check aut (fun _ m _ => net_stream sx_net m) 0 50 true (cn_init sx_net))) /\
  dx_run dx_queries = ([LFormula 4 true; LFormula 0 true; LFormula 1 true; LFormula 2 true; LFormula 3 false], Ok tt) /\
  dx_run [dx_control] = ([LFormula 0 false], Ok tt) /\
  dx_run [QPlain (CEF (cp_crit 1)); dx_control; dx_control] = ([LFormula 1 false; LFormula 2 false; LFormula 0 true], Ok tt).
Proof.
  split; [exact (sx_searchable 0)|]. split; [exact sx_places|]. split; [exact sx_overflow|]. split; [exact dx_plain|]. split; [split; [exact sx_small|exact sx_free]|].
  split; [intros aut; apply sx_answers|]. split; [vm_compute; reflexivity|]. split; vm_compute; reflexivity.
Qed.

(** Finding: control queries are dropped, after another control query and after a CTL query. *)
Lemma dx_dropped : forall c, c = dx_control \/ c = QPlain cp_query ->
  exists o simplify reduce ctl ltl synth siphon search tar net qs,
  start_ok net /\ parts_right o simplify reduce ctl ltl synth search tar net qs /\
  qs = [c; dx_control] /\ o_verify o = true /\ o_approx o = false /\ o_ltl o = false /\
  let d := driver o simplify reduce ctl ltl synth siphon search tar net qs in
  snd d = Ok tt /\ verdicts (fst d) = [0].
Proof.
  intros c Hc. exists dx_opts, (map (push_query sx_net 30)), (fun _ _ => Throw), dx_ctl, (fun _ _ _ => Throw), (run_synth (fun _ => fifo) 60), (fun _ _ => false),
    (fun n => run_search DFS (fun _ _ => 0%N) 0 50 n), (fun _ _ _ _ => ([], Throw)), sx_net, [c; dx_control].
  split; [exact dx_start|]. split.
  { apply dx_parts. intros x Hx. destruct Hc as [->| ->]; cbn [In] in Hx; destruct Hx as [E|[E|[]]]; try discriminate E. left. exact E. }
  split; [reflexivity|]. split; [reflexivity|]. split; [reflexivity|]. split; [reflexivity|].
  destruct Hc as [->| ->]; split; vm_compute; reflexivity.
Qed.

(** Finding: with a place of more than 2^31 - 1 tokens only the first query is rewritten, and the
    CTL engine answers a later one wrong. *)
Definition bx_calls : list call :=
  [CPlace 10 2; CPlace 11 1; CPlace 12 0; CPlace 13 3000000000; CTrans 20 0; CTrans 21 0;
   CIn 10 20 false 1; CIn 11 20 false 1; COut 20 12 1; CIn 12 21 false 1; COut 21 10 1; COut 21 11 1].
Definition bx_net : cnet := built bx_calls.
Definition bx_marks : list marking := [[2; 1; 0; 3000000000]; [1; 0; 1; 3000000000]]%N.
Definition bx_query : cond := CAnd [CAG (CNot (cp_crit 2)); CEF (cp_crit 1)].
Lemma bx_plain : plain bx_net /\ forall m, reachable (to_pnet bx_net) (cn_init bx_net) m -> In m bx_marks.
Proof.
  apply plain_by.
  - repeat constructor; lia.
  - exists 10. left. reflexivity.
  - eexists. vm_compute. reflexivity.
  - apply Nat.ltb_lt. vm_compute. reflexivity.
  - apply mark_by; vm_compute; reflexivity.
  - vm_compute. reflexivity.
  - vm_compute. reflexivity.
  - vm_compute. reflexivity.
Qed.
Lemma bx_searchable : searchable bx_net 0.
Proof.
  destruct bx_plain as ((L & _) & R). split; [exact L|]. split; [vm_compute; reflexivity|]. split; [apply mark_by; vm_compute; reflexivity|].
  intros l Hn Hl. assert (H : length l <= length bx_marks).
  { apply NoDup_incl_length; [exact Hn|]. intros m Hm. apply R. apply (kreach_0 (to_pnet bx_net)). apply Hl. exact Hm. }
  apply N.le_trans with (N.of_nat (length bx_marks)); [lia|discriminate].
Qed.
Lemma bx_overflow : no_overflow bx_net.
Proof.
  intros m t tr Hr Ht He. assert (Hin := proj2 bx_plain m Hr). intros (a & Ha & K).
  assert (Htr : In tr (pn_trans (to_pnet bx_net))) by (eapply nth_error_In; exact Ht).
  assert (B : forall tr, In tr (pn_trans (to_pnet bx_net)) -> forall a, In a (tr_post tr) -> (arc_weight a < 10)%N).
  { vm_compute pn_trans. intros x [<-|[<-|[]]] y Hy; vm_compute in Hy; repeat (destruct Hy as [<-|Hy]; [vm_compute; reflexivity|]); destruct Hy. }
  specialize (B tr Htr a Ha).
  assert (T : (tokens m (arc_place a) < 3000000001)%N).
  { unfold tokens. destruct Hin as [<-|[<-|[]]]; (destruct (arc_place a) as [|[|[|[|[|n]]]]]; vm_compute; reflexivity). }
  assert (Hbig : (3000000011 < 2 ^ 32 - 1)%N) by (vm_compute; reflexivity). lia.
Qed.
Lemma bx_true : sat (to_pnet bx_net) (cn_init bx_net) bx_query.
Proof.
  destruct bx_plain as ((L & _) & R). assert (W := layout_wf _ L). unfold bx_query. apply sat_and. intros c [<-|[<-|[]]].
  - apply sat_AG; [exact W|reflexivity|]. intros m Hm. apply sat_not; [exact W|reflexivity|]. unfold cp_crit. rewrite sat_cmp by exact W.
    destruct (R m Hm) as [<-|[<-|[]]]; vm_compute; intros X; apply X; reflexivity.
  - apply sat_EF; [exact W|reflexivity|]. exists [1; 0; 1; 3000000000]%N. split.
    + exists [0]. econstructor; [|constructor]. pose proof bx_searchable as (_ & _ & A & _). apply mark_ok_fits in A. destruct A as (A1 & A2).
      apply (proj1 (net_stream_ok L A1 A2)). vm_compute. left; reflexivity.
    + unfold cp_crit. rewrite sat_cmp by exact W. vm_compute. discriminate.
Qed.
Lemma bx_wrong : forall lp, exists net c, searchable net 0 /\ 0 < cn_places net /\ no_overflow net /\ ctl c = true /\ in_range c = true /\
  let d := driver dx_opts (simplify_queries net 30 lp (o_simplify dx_opts)) (fun _ _ => Throw)
    (fun _ i q => ctl_main (fun pos goals handle => search_reach net 0 false false DFS (fun _ _ => 0%N) 0 50 goals handle)
       (fun pos x => Throw) (fun pos x => ctl_single_solve net x (fun i => i) (fun n => n) 90) net false q)
    (fun _ _ _ => Throw) (run_synth (fun _ => fifo) 60) (fun _ _ => false) (fun n => run_search DFS (fun _ _ => 0%N) 0 50 n) (fun _ _ _ _ => ([], Throw)) net [QPlain c; QPlain c] in
  d = ([LFormula 0 true; LFormula 1 false], Ok tt) /\ sat (to_pnet net) (cn_init net) c.
Proof.
  intros lp. exists bx_net, bx_query. split; [exact bx_searchable|]. split; [apply Nat.ltb_lt; vm_compute; reflexivity|]. split; [exact bx_overflow|]. split; [reflexivity|]. split; [vm_compute; reflexivity|].
  split; [vm_compute; reflexivity|exact bx_true].
Qed.
