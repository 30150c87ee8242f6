(** Proofs about prepareForReachability and the classification of queries. *)
From Verif Require Import Base BaseLemmas NetSpec NetModel NetProofs PqlSyntax PqlSpec PqlModel PqlProofs PushRules PqlRuns
  StoreSpec StoreProofs SearchModel SearchSpec QueueModel SearchMain QueryModel QuerySpec QueryProofs.
From Coq Require Import Classical_Prop.

(** * Subformulas *)
Lemma occurs_cases : forall x c, occurs x c <-> x = c \/ exists d, In d (children c) /\ occurs x d.
Proof.
  intros x c. split.
  - intros [|c' d Hd Hx]; [left; reflexivity|right; eauto].
  - intros [->|(d & Hd & Hx)]; [constructor|econstructor; eauto].
Qed.
Lemma existsb_ex : forall (A : Type) (f : A -> bool) (P : A -> Prop) l, Forall (fun x => f x = true <-> P x) l ->
  (existsb f l = true <-> exists x, In x l /\ P x).
Proof.
  intros A f P l H. rewrite existsb_exists. rewrite Forall_forall in H.
  split; intros (x & Hx & Hf); exists x; (split; [exact Hx|apply H; assumption]).
Qed.
(** A predicate computed by a traversal without state. *)
Section Any.
  Variable here : cond -> Prop.
  Lemma any_unfold : forall c, (exists x, here x /\ occurs x c) <-> here c \/ exists d, In d (children c) /\ exists x, here x /\ occurs x d.
  Proof.
    intros c. split.
    - intros (x & Hx & Ho). apply occurs_cases in Ho. destruct Ho as [->|(d & Hd & Ho)]; [left; exact Hx|right; eauto].
    - intros [H|(d & Hd & x & Hx & Ho)]; [exists c; split; [exact H|constructor]|exists x; split; [exact Hx|econstructor; eauto]].
  Qed.
End Any.
Lemma temporal_spec : forall c, temporal c = true <-> exists x, temporal_op x /\ occurs x c.
Proof.
  assert (Y : forall c, temporal_op c -> (True <-> exists x, temporal_op x /\ occurs x c)).
  { intros c H. split; [|tauto]. intros _. exists c. split; [exact H|constructor]. }
  induction c using cond_ind'; cbn [temporal].
  all: try (match goal with |- true = true <-> _ => etransitivity; [|apply Y; exact I]; tauto end).
  all: rewrite any_unfold; cbn [children temporal_op].
  all: try (split; [discriminate|]; intros [[]|(d & [] & _)]).
  - rewrite IHc. cbn [In]. firstorder. subst. eauto.
  - rewrite (existsb_ex _ _ _ l H). firstorder.
  - rewrite (existsb_ex _ _ _ l H). firstorder.
Qed.
Lemma next_spec : forall c, contains_next c = true <-> exists x, next_op x /\ occurs x c.
Proof.
  assert (Y : forall c, next_op c -> (True <-> exists x, next_op x /\ occurs x c)).
  { intros c H. split; [|tauto]. intros _. exists c. split; [exact H|constructor]. }
  induction c using cond_ind'; cbn [contains_next].
  all: try (match goal with |- true = true <-> _ => etransitivity; [|apply Y; exact I]; tauto end).
  all: rewrite any_unfold; cbn [children next_op].
  all: try (split; [discriminate|]; intros [[]|(d & [] & _)]).
  all: try (rewrite (existsb_ex _ _ _ l H); firstorder; fail).
  all: try (rewrite IHc; cbn [In]; split; [intros E; right; exists c; auto|intros [[]|(d & [<-|[]] & E)]; exact E]).
  all: rewrite orb_true_iff, IHc1, IHc2; cbn [In]; split;
    [intros [E|E]; right; [exists c1|exists c2]; auto|intros [[]|(d & [<-|[<-|[]]] & E)]; auto].
Qed.
Lemma deadlock_spec : forall c, contains_deadlock c = true <-> occurs CDead c.
Proof.
  induction c using cond_ind'; cbn [contains_deadlock]; rewrite occurs_cases; cbn [children].
  all: try (split; [discriminate|]; intros [E|(d & [] & _)]; discriminate E).
  all: try (rewrite IHc; cbn [In]; split; [intros E; right; exists c; split; [tauto|exact E]|intros [E|(d & [<-|[]] & E)]; [discriminate|exact E]]).
  all: try (rewrite orb_true_iff, IHc1, IHc2; cbn [In]; split;
    [intros [E|E]; right; [exists c1|exists c2]; (split; [tauto|exact E])|
     intros [E|(d & [<-|[<-|[]]] & E)]; [discriminate|left; exact E|right; exact E]]).
  all: try (rewrite (existsb_ex _ _ _ l H); split; [intros E; right; exact E|intros [E|E]; [discriminate|exact E]]).
  tauto.
Qed.

(** * Reachability *)
Lemma not_reach_nested : forall c, not_reach true c = negb (atomic c).
Proof.
  induction c using cond_ind'; cbn [not_reach atomic]; auto.
  - induction H; cbn [existsb forallb]; auto. rewrite H, IHForall, negb_andb. reflexivity.
  - induction H; cbn [existsb forallb]; auto. rewrite H, IHForall, negb_andb. reflexivity.
  - destruct c; reflexivity.
  - destruct c; reflexivity.
Qed.
Lemma is_reachability_spec : forall c, is_reachability c = true <-> reach_query c.
Proof.
  unfold is_reachability. induction c using cond_ind'; cbn [not_reach negb].
  all: try (split; [discriminate|intros E; inversion E]).
  - rewrite IHc. split; [constructor; assumption|intros E; inversion E; assumption].
  - rewrite not_reach_nested, negb_involutive. split; [constructor; assumption|intros E; inversion E; assumption].
  - rewrite not_reach_nested, negb_involutive. split; [constructor; assumption|intros E; inversion E; assumption].
  - destruct c; cbn [negb]; try (split; [discriminate|intros E; inversion E]).
    rewrite not_reach_nested, negb_involutive. split; [constructor; assumption|intros E; inversion E; assumption].
  - destruct c; cbn [negb]; try (split; [discriminate|intros E; inversion E]).
    rewrite not_reach_nested, negb_involutive. split; [constructor; assumption|intros E; inversion E; assumption].
Qed.
Lemma ltl_E_F : forall net m b, wf_pnet net -> atomic b = true -> (sat net m (CE (CF b)) <-> sat net m (CEF b)).
Proof. intros net m b Hw Hb. unfold sat. cbn [holds]. tauto. Qed.
Lemma ltl_A_G : forall net m b, wf_pnet net -> atomic b = true -> (sat net m (CA (CG b)) <-> sat net m (CAG b)).
Proof. intros net m b Hw Hb. unfold sat. cbn [holds]. tauto. Qed.
Lemma reach_query_stf : forall c, reach_query c -> stf c = true.
Proof. intros c H. induction H; cbn [stf ltl]; auto using atomic_stf; clear - H; induction b using cond_ind'; cbn [atomic ltl] in *; auto; try discriminate;
  rewrite forallb_forall in *; rewrite Forall_forall in *; auto. Qed.
Lemma prepare_spec : forall c, reach_query c -> forall negated,
  exists g inv, prepare negated c = Ok (Some (g, inv)) /\ atomic g = true /\
  forall net m, wf_pnet net ->
    ((if negated then ~ sat net m c else sat net m c) <->
     (if inv then ~ exists m', reachable net m m' /\ sat net m' g else exists m', reachable net m m' /\ sat net m' g)).
Proof.
  assert (AGn : forall net m b, wf_pnet net -> atomic b = true ->
    (sat net m (CAG b) <-> ~ exists m', reachable net m m' /\ sat net m' (CNot b))).
  { intros net m b Hw Hb. rewrite sat_AG by auto using atomic_stf. split.
    - intros H (m' & Hr & Hn). rewrite sat_not in Hn by auto using atomic_stf. apply Hn, H, Hr.
    - intros H m' Hr. destruct (classic (sat net m' b)) as [|G]; [assumption|]. exfalso. apply H. exists m'. split; [exact Hr|].
      apply sat_not; auto using atomic_stf. }
  intros c H. induction H as [b Hb|b Hb|b Hb|b Hb|c Hc IH]; intros negated; cbn [prepare].
  - exists b, negated. split; [reflexivity|]. split; [exact Hb|]. intros net m Hw. pose proof (sat_EF net m b Hw (atomic_stf b Hb)). destruct negated; tauto.
  - exists (CNot b), (negb negated). split; [reflexivity|]. split; [exact Hb|]. intros net m Hw. pose proof (AGn net m b Hw Hb). destruct negated; cbn [negb]; tauto.
  - exists b, negated. split; [reflexivity|]. split; [exact Hb|]. intros net m Hw. pose proof (ltl_E_F net m b Hw Hb). pose proof (sat_EF net m b Hw (atomic_stf b Hb)). destruct negated; tauto.
  - exists (CNot b), (negb negated). split; [reflexivity|]. split; [exact Hb|]. intros net m Hw. pose proof (ltl_A_G net m b Hw Hb). pose proof (AGn net m b Hw Hb). destruct negated; cbn [negb]; tauto.
  - destruct (IH (negb negated)) as (g & inv & E & A & G). exists g, inv. split; [exact E|]. split; [exact A|].
    intros net m Hw. rewrite <- (G net m Hw). pose proof (sat_not net m c Hw (reach_query_stf c Hc)). destruct negated; cbn [negb]; tauto.
Qed.

(** The answers of the search for compiled reachability queries. *)
Lemma search_reach_queries : forall net st dist heur cs fuel s b,
  searchable net 0 -> 0 < cn_places net -> strategy_ok st -> heur < length cs ->
  Forall reach_query cs ->
  search net 0 st (map pure_query (map (goal_test net) cs)) dist
    (fun i => printer_handle false false (invariant_of (nth i cs (CBool false))) None) true
    (map (fun _ => Unknown) cs) (map (fun _ => 0%N) cs) heur fuel = Ok (s, b) ->
  forall i c, nth_error cs i = Some c ->
  (sat (to_pnet net) (cn_init net) c /\ nth i (s_res s) Unknown = Satisfied) \/
  (~ sat (to_pnet net) (cn_init net) c /\ nth i (s_res s) Unknown = NotSatisfied).
Proof.
  intros net st dist heur cs fuel s b Hsr Hpl Hst Hh Hc E i c Hi.
  assert (L : layout net) by apply Hsr. assert (W := layout_wf net L).
  assert (Hrc : reach_query c) by (rewrite Forall_forall in Hc; apply Hc; eapply nth_error_In; eauto).
  destruct (prepare_spec c Hrc false) as (g & inv & Ep & Ag & G). specialize (G (to_pnet net) (cn_init net) W).
  assert (Hg : goal_of c = g) by (unfold goal_of, prepare_for_reachability; rewrite Ep; reflexivity).
  assert (Hinv : invariant_of c = inv) by (unfold invariant_of, prepare_for_reachability; rewrite Ep; reflexivity).
  assert (Hn : nth i cs (CBool false) = c) by (apply nth_error_nth; exact Hi).
  assert (D : forall m, mark_ok (cn_places net) m -> fits m /\ (net_deadb net m = true <-> dead (to_pnet net) m)).
  { intros m (Hl & Hf). split.
    - intros p. unfold tokens. destruct (Nat.lt_ge_cases p (length m)) as [Hp|Hp].
      + specialize (Hf _ (nth_In m 0%N Hp)). unfold u32max. lia.
      + rewrite nth_overflow by exact Hp. unfold u32max. lia.
    - destruct (@deadlocked_spec net m L Hpl Hl) as (d & Hd & Ed). unfold net_deadb. rewrite Hd. exact Ed. }
  assert (T : forall m, mark_ok (cn_places net) m -> (goal_test net c m = true <-> sat (to_pnet net) m g)).
  { intros m Hm. destruct (D m Hm) as (Hf & Hd). destruct (evaluate_sat (to_pnet net) (net_deadb net) m g W Hf Hd (atomic_stf g Ag)) as (T1 & T2 & T3).
    specialize (T3 Ag). unfold goal_test. rewrite Hg. destruct (evaluate (net_deadb net) m g); cbn [is_rtrue]; split; intros X; try congruence; auto.
    exfalso. exact (T2 eq_refl X). }
  assert (Hans := @answers_exact net 0%N st dist (map (fun _ => Unknown) cs) heur Hsr Hst (map (goal_test net) cs)
    (fun i => invariant_of (nth i cs (CBool false))) (map (fun _ => 0%N) cs) fuel s b).
  rewrite !map_length in Hans. specialize (Hans eq_refl Hh).
  assert (Hu : map (fun _ : cond => Unknown) cs = map (fun _ => Unknown) (map (goal_test net) cs)) by (rewrite map_map; reflexivity).
  specialize (Hans Hu E i (goal_test net c)). rewrite nth_error_map, Hi in Hans. specialize (Hans eq_refl).
  cbn beta in Hans. rewrite Hn, Hinv in Hans.
  destruct Hans as [((m & Hr & Hm & Hok) & ->)|(Hall & ->)].
  - assert (X : exists m', reachable (to_pnet net) (cn_init net) m' /\ sat (to_pnet net) m' g).
    { exists m. split; [apply kreach_0; exact Hr|]. apply T; auto. }
    destruct inv; [right|left]; (split; [tauto|reflexivity]).
  - assert (X : ~ exists m', reachable (to_pnet net) (cn_init net) m' /\ sat (to_pnet net) m' g).
    { intros (m & Hr & Hm). apply kreach_0 in Hr. destruct (Hall m Hr) as (Hf & Hok). apply (T m Hok) in Hm. congruence. }
    destruct inv; [left|right]; (split; [tauto|reflexivity]).
Qed.
