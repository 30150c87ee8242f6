(** Concrete cases for the composite CTL engine, and queries that it answers wrong. *)
From Verif Require Import Base BaseLemmas NetSpec NetModel NetProofs PqlSyntax PqlSpec PqlModel PqlProofs PqlRuns QuerySpec QueryModel QueryProofs
  StoreSpec StoreProofs SearchSpec SearchProofs SearchMain SearchExamples QueueModel StubSpec StubModel StubProofs StubMain LtlSpec LtlModel LtlMain LtlQuerySpec LtlQueryModel LtlQueryProofs LtlQueryExamples
  CtlProofs CtlNet CtlFrag CtlMain SearchModel TarModel TarSpec TarMain TarExamples CmpModel CmpSpec CmpFrag CmpProofs CmpSearch CmpMain.

(** The automaton of "never the proposition". *)
Definition g_not : saut := mkSaut 0 (fun q => if Nat.eqb q 0 then [(gidle, 0)] else []) (Nat.eqb 0) (fun _ => 0).
Lemma g_not_words : forall w, waccepts g_not w <-> forall i, w i 0 = false.
Proof.
  intros w. split.
  - intros (q & Q0 & Q1 & _). assert (G : forall i, q i = 0).
    { induction i as [|i IH]; [exact Q0|]. destruct (Q1 i) as (g & G1 & _). rewrite IH in G1. cbn [g_not sa_edges Nat.eqb] in G1. destruct G1 as [G1|[]]. injection G1 as _ G1. auto. }
    intros i. destruct (Q1 i) as (g & G1 & G2). rewrite (G i) in G1. cbn [g_not sa_edges Nat.eqb] in G1. destruct G1 as [G1|[]]. injection G1 as <- _. cbn [geval gidle] in G2. tauto.
  - intros H. exists (fun _ => 0). split; [reflexivity|]. split; [intros i; exists gidle; split; [left; reflexivity|cbn [geval gidle]; right; auto]|]. intros n. exists n. split; [lia|reflexivity].
Qed.

(** "eventually critical" is for the LTL engine, "two can be critical" for the search, and the rest
    for the dependency graph. *)
Definition cp_crit (n : Z) : cond := CCmp OpLe (Lit n) (Pl 2).
Definition cp_query : cond :=
  CAnd [CAF (cp_crit 1); CAG (CNot (cp_crit 2)); COr [CEF (CAnd [cp_crit 1; CEX (CNot (cp_crit 1))]); CEF (cp_crit 3)]].
Definition cp_pushed : cond :=
  match push (net_deadb sx_net) (cn_init sx_net) true 30 false false cp_query with Ok r => r | _ => CBool false end.
Definition cp_run (k : N) (stub direct : bool) (q : cond) : res bool :=
  ctl_main (fun pos goals handle => search_reach sx_net k stub false DFS (fun _ _ => 0%N) 0 50 goals handle)
    (fun pos c => ltl_solve CompFull (fun _ => false) true (fun _ => g_not) (net_deadb sx_net)
       (fun aut => ndfs_check aut (fun _ m _ => net_stream sx_net m) 0 50 true (cn_init sx_net)) c)
    (fun pos c => ctl_single_solve sx_net c (fun i => i) (fun n => n) 90) sx_net direct q.

Lemma sx_overflow : no_overflow sx_net.
Proof.
  intros m t tr Hr Ht He. apply (kreach_0 (to_pnet sx_net)) in Hr.
  assert (Hin := @closed_all sx_net 0%N sx_marks sx_layout sx_init sx_closed m Hr).
  intros (a & Ha & K).
  assert (Htr : In tr (pn_trans (to_pnet sx_net))) by (eapply nth_error_In; exact Ht).
  assert (B : forall tr, In tr (pn_trans (to_pnet sx_net)) -> forall a, In a (tr_post tr) -> (arc_weight a < 10)%N).
  { vm_compute pn_trans. intros x [<-|[<-|[]]] y Hy; vm_compute in Hy; repeat (destruct Hy as [<-|Hy]; [vm_compute; reflexivity|]); destruct Hy. }
  specialize (B tr Htr a Ha).
  assert (T : (tokens m (arc_place a) < 10)%N).
  { unfold tokens. destruct Hin as [<-|[<-|[]]]; (destruct (arc_place a) as [|[|[|[|n]]]]; vm_compute; reflexivity). }
  assert (Hbig : (20 < 2 ^ 32 - 1)%N) by (vm_compute; reflexivity). lia.
Qed.
Lemma sx_plain : plain sx_net /\ forall m, reachable (to_pnet sx_net) (cn_init sx_net) m -> In m sx_marks.
Proof.
  assert (E : sx_net = built sx_calls) by (vm_compute; reflexivity). rewrite E. apply plain_by.
  - repeat constructor; lia.
  - exists 10. left. reflexivity.
  - eexists. vm_compute. reflexivity.
  - apply Nat.ltb_lt. vm_compute. reflexivity.
  - apply mark_by; vm_compute; reflexivity.
  - vm_compute. reflexivity.
  - vm_compute. reflexivity.
  - vm_compute. reflexivity.
Qed.
Lemma sx_marked : forall m, reachable (to_pnet sx_net) (cn_init sx_net) m -> exists p, tokens m p <> 0%N.
Proof. intros m R. exists 0. destruct (proj2 sx_plain m R) as [<-|[<-|[]]]; discriminate. Qed.
(** What occurs in the rewritten query. *)
Fixpoint subs (c : cond) : list cond :=
  c :: match c with
       | CNot c | CEX c | CAX c | CEF c | CAF c | CEG c | CAG c | CE c | CA c | CF c | CG c | CX c => subs c
       | CAnd l | COr l => flat_map subs l
       | CEU a b | CAU a b | CU a b => subs a ++ subs b
       | _ => []
       end.
Lemma subs_occurs : forall x c, occurs x c -> In x (subs c).
Proof.
  intros x c H. induction H as [|c d Hd _ IH]; [destruct x; left; reflexivity|].
  destruct c; cbn [children] in Hd; cbn [subs]; right; repeat (destruct Hd as [<-|Hd] || contradiction); auto using in_or_app; try (apply in_flat_map; eauto).
Qed.
Lemma cp_translates : forall x, occurs x cp_pushed -> ltl_shape x = true ->
  translates (fun _ => g_not) (SNot (fst (to_spot CompFull (fun _ => false) true (fst (to_ltl x)) []))).
Proof.
  intros x Hx Hs. apply subs_occurs in Hx.
  assert (E : x = CAF (cp_crit 1)).
  { assert (F : filter ltl_shape (subs cp_pushed) = [CAF (cp_crit 1)]) by (vm_compute; reflexivity).
    pose proof (proj2 (filter_In ltl_shape x (subs cp_pushed)) (conj Hx Hs)) as I. rewrite F in I. destruct I as [<-|[]]. reflexivity. }
  subst x. split; [intros s t [<-|[]] [<-|[]] _; reflexivity|]. intros w. cbn. split.
  - intros H (j & A). pose proof (proj1 (g_not_words w) H j) as B. congruence.
  - intros H. apply g_not_words. intros i. destruct (w i 0) eqn:A; [|reflexivity]. exfalso. apply H. exists i. exact A.
Qed.
Lemma cp_goals : forall g, occurs (CEF g) cp_pushed -> atomic g = true -> g = cp_crit 2.
Proof.
  intros g Hg Ha. apply subs_occurs in Hg.
  assert (F : filter (fun c => match c with CEF g => atomic g | _ => false end) (subs cp_pushed) = [CEF (cp_crit 2)]) by (vm_compute; reflexivity).
  pose proof (proj2 (filter_In (fun c => match c with CEF g => atomic g | _ => false end) (CEF g) (subs cp_pushed)) (conj Hg Ha)) as I.
  rewrite F in I. destruct I as [I|[]]. congruence.
Qed.
Lemma cp_small : forall m, reachable (to_pnet sx_net) (cn_init sx_net) m -> small m (cp_crit 2).
Proof. intros m R. destruct (proj2 sx_plain m R) as [<-|[<-|[]]]; vm_compute; repeat split; discriminate. Qed.
Lemma sx_answers : forall weak fuel aut, answer_right (to_pnet sx_net) (cn_init sx_net) aut 0 (ndfs_check aut (fun _ m _ => net_stream sx_net m) 0 fuel weak (cn_init sx_net)).
Proof.
  intros weak fuel aut. apply ndfs_right; [exact (layout_wf _ sx_layout)|]. apply stream_enumerates; [exact sx_layout|]. intros m R. destruct (proj2 sx_plain m R) as [<-|[<-|[]]]; (split; [reflexivity|]); intros [|[|[|[|p]]]]; reflexivity.
Qed.

(** The same with trace abstraction refinement as the search. *)
Definition cp_ge (n : N) : cond := CConj false [mkCons 2 n u32max].
Definition cp_tarq : cond := CAnd [CEF (cp_ge 1); CNot (CEF (cp_ge 2)); CAX (CEF (cp_crit 1))].
Definition cp_tar : res bool :=
  ctl_main (fun pos goals handle => tar_reach sx_net handle (fun _ _ => 0) 200 200 goals) (fun pos c => Throw)
    (fun pos c => ctl_single_solve sx_net c (fun i => i) (fun n => n) 90) sx_net false cp_tarq.

(** A query that was not rewritten: the answer for the negated goal is not turned round. *)
Definition cp_inv : cond := CAG (CNot (cp_crit 2)).
Lemma cp_inv_sat : sat (to_pnet sx_net) (cn_init sx_net) cp_inv.
Proof.
  unfold cp_inv. apply sat_AG; [exact (layout_wf _ sx_layout)|reflexivity|]. intros m R. apply sat_not; [exact (layout_wf _ sx_layout)|reflexivity|]. unfold cp_crit. rewrite sat_cmp by exact (layout_wf _ sx_layout).
  destruct (proj2 sx_plain m R) as [<-|[<-|[]]]; vm_compute; intros X; apply X; reflexivity.
Qed.
Lemma sx_places : 0 < cn_places sx_net.
Proof. apply Nat.ltb_lt. vm_compute. reflexivity. Qed.
Lemma cp_case :
  searchable sx_net 0 /\ 0 < cn_places sx_net /\ no_overflow sx_net /\ strategy_ok DFS /\ dirs_ok sx_net /\
  ctl cp_query = true /\ in_range cp_query = true /\
  push (net_deadb sx_net) (cn_init sx_net) true 30 false false cp_query = Ok cp_pushed /\
  (forall g, occurs (CEF g) cp_pushed -> atomic g = true -> por_cond g = true /\ forall m, reachable (to_pnet sx_net) (cn_init sx_net) m -> small m g) /\
  (forall x, occurs x cp_pushed -> ltl_shape x = true -> translates (fun _ => g_not) (SNot (fst (to_spot CompFull (fun _ => false) true (fst (to_ltl x)) [])))) /\
  (forall aut, answer_right (to_pnet sx_net) (cn_init sx_net) aut 0 (ndfs_check aut (fun _ m _ => net_stream sx_net m) 0 50 true (cn_init sx_net))) /\
  cp_run 0 false false cp_pushed = Ok true /\ cp_run 0 true false cp_pushed = Ok true /\ cp_run 0 false true cp_pushed = Ok true.
Proof.
  split; [apply sx_searchable|]. split; [exact sx_places|]. split; [exact sx_overflow|]. split; [exact I|]. split; [exact (proj1 (proj2 (proj2 (proj1 sx_plain))))|].
  split; [reflexivity|]. split; [vm_compute; reflexivity|]. split; [vm_compute; reflexivity|].
  split; [intros g Hg Ha; rewrite (cp_goals g Hg Ha); split; [reflexivity|exact cp_small]|].
  split; [exact cp_translates|]. split; [exact (sx_answers true 50)|]. repeat split; vm_compute; reflexivity.
Qed.
Lemma cp_tar_case :
  plain sx_net /\ (forall m, reachable (to_pnet sx_net) (cn_init sx_net) m -> exists p, tokens m p <> 0%N) /\
  frag cp_tarq = true /\ one_neg cp_tarq = true /\
  (forall g, occurs (CEF g) cp_tarq -> g = cp_ge 1 \/ g = cp_ge 2 \/ g = cp_crit 1) /\ separate (cp_ge 1) /\ separate (cp_ge 2) /\
  cp_tar = Ok true.
Proof.
  split; [exact (proj1 sx_plain)|]. split; [exact sx_marked|]. split; [reflexivity|]. split; [reflexivity|]. split.
  { intros g Hg. apply subs_occurs in Hg.
    assert (F : filter (fun c => match c with CEF g => true | _ => false end) (subs cp_tarq) = [CEF (cp_ge 1); CEF (cp_ge 2); CEF (cp_crit 1)]) by (vm_compute; reflexivity).
    pose proof (proj2 (filter_In (fun c => match c with CEF g => true | _ => false end) (CEF g) (subs cp_tarq)) (conj Hg eq_refl)) as J.
    rewrite F in J. destruct J as [J|[J|[J|[]]]]; injection J as <-; auto. }
  split; [|split; [|vm_compute; reflexivity]]; (split; [repeat constructor; intros []|intros x [<-|[]]; vm_compute; split; discriminate]).
Qed.
Lemma unrewritten_wrong : exists net q b,
  searchable net 0 /\ no_overflow net /\ ctl q = true /\ in_range q = true /\ one_neg q = true /\
  ctl_main (fun pos goals handle => search_reach net 0 false false DFS (fun _ _ => 0%N) 0 50 goals handle)
    (fun _ _ => Throw) (fun pos x => ctl_single_solve net x (fun i => i) (fun n => n) 90) net false q = Ok b /\
  b = false /\ sat (to_pnet net) (cn_init net) q.
Proof.
  exists sx_net, cp_inv, false. split; [apply sx_searchable|]. split; [exact sx_overflow|]. split; [reflexivity|]. split; [vm_compute; reflexivity|]. split; [reflexivity|].
  split; [vm_compute; reflexivity|]. split; [reflexivity|exact cp_inv_sat].
Qed.
Lemma bound_wrong : exists net k q, (0 < k)%N /\ searchable net k /\ no_overflow net /\ frag q = true /\ one_neg q = true /\
  let answer direct := ctl_main (fun pos goals handle => search_reach net k false false DFS (fun _ _ => 0%N) 0 50 goals handle)
    (fun _ _ => Throw) (fun pos x => ctl_single_solve net x (fun i => i) (fun n => n) 90) net direct q in
  answer true = Ok true /\ answer false = Ok false /\ sat (to_pnet net) (cn_init net) q.
Proof.
  exists sx_net, 2%N, (CEF (cp_crit 1)). split; [reflexivity|]. split; [apply sx_searchable|]. split; [exact sx_overflow|]. split; [reflexivity|]. split; [reflexivity|].
  assert (A : ctl_main (fun pos goals handle => search_reach sx_net 2 false false DFS (fun _ _ => 0%N) 0 50 goals handle)
    (fun _ _ => Throw) (fun pos x => ctl_single_solve sx_net x (fun i => i) (fun n => n) 90) sx_net true (CEF (cp_crit 1)) = Ok true) by (vm_compute; reflexivity).
  cbn zeta. split; [exact A|]. split; [vm_compute; reflexivity|].
  destruct (proj1 (mark_ok_fits sx_net (cn_init sx_net)) sx_init) as (B & D).
  pose proof (main_direct_ok sx_layout sx_places B D sx_overflow (CEF (cp_crit 1)) (fun i => i) (fun n => n) 90 eq_refl) as M.
  assert (K : ctl_main_direct sx_net (CEF (cp_crit 1)) (fun i => i) (fun n => n) 90 = Ok true) by (vm_compute; reflexivity). rewrite K in M. apply M. reflexivity.
Qed.
