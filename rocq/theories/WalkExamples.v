(** Concrete random walks, and what goes wrong with several queries, with a token bound and
    with very long walks. *)
From Verif Require Import Base BaseLemmas NetSpec NetModel NetProofs BuilderModel BuilderSpec BuilderMain PqlSyntax EncoderModel StoreModel StoreSpec StoreProofs
  SearchModel SearchSpec SearchProofs SearchMain SearchExamples StubModel CtlMain TarExamples WalkModel WalkSpec WalkProofs WalkFind WalkMain.

(** A token moves from place 10 to 11 to 12. *)
Definition wa_calls : list call :=
  [CPlace 10 1; CPlace 11 0; CPlace 12 0; CTrans 20 0; CTrans 21 0; CIn 10 20 false 1; COut 20 11 1; CIn 11 21 false 1; COut 21 12 1].
Definition wa := built wa_calls.
Definition at_least (p : nat) (n : N) (m : list N) : bool := (n <=? nth p m 0)%N.
Ltac easy_net := match goal with
  | |- weights_pos _ => repeat constructor; lia
  | |- exists p, is_place _ p => exists 10; left; reflexivity
  | |- exists b, do_calls _ _ = Ok b => eexists; vm_compute; reflexivity
  end.
Lemma walkable_by : forall cs o pots, weights_pos cs -> (exists p, is_place cs p) -> (exists b, do_calls b_empty cs = Ok b) ->
  (0 <? cn_places (built cs)) = true -> mark_ok (cn_places (built cs)) (cn_init (built cs)) -> pots = [] \/ length pots = cn_ntrans (built cs) ->
  walkable (built cs) o pots.
Proof.
  intros cs o pots W P E P0 Mi Hp. destruct (built_good cs W P E) as (L & D). apply Nat.ltb_lt in P0.
  split; [exact L|]. split; [exact P0|]. split; [exact Mi|]. split; [exact Hp|]. intros _. exact D.
Qed.
Lemma wa_walkable : forall o, walkable wa o [].
Proof. intros o. apply walkable_by; try easy_net; [vm_compute; reflexivity|apply mark_by; vm_compute; reflexivity|left; reflexivity]. Qed.
Definition wa_marks : list marking := [[1; 0; 0]; [0; 1; 0]; [0; 0; 1]]%N.
Lemma wa_reach : forall m, reachable (to_pnet wa) (cn_init wa) m -> In m wa_marks.
Proof.
  intros m R. destruct (wa_walkable None) as (L & _ & Mi & _). apply (@closed_all wa 0%N wa_marks L Mi); [vm_compute; reflexivity|]. apply kreach_0. exact R.
Qed.
Lemma wa_overflow : no_overflow wa.
Proof.
  intros m t tr Hr Ht He (a & Ha & K). apply wa_reach in Hr.
  assert (Htr : In tr (pn_trans (to_pnet wa))) by (eapply nth_error_In; exact Ht).
  assert (B : forall tr, In tr (pn_trans (to_pnet wa)) -> forall a, In a (tr_post tr) -> (arc_weight a < 10)%N).
  { vm_compute pn_trans. intros x [<-|[<-|[]]] y Hy; vm_compute in Hy; repeat (destruct Hy as [<-|Hy]; [vm_compute; reflexivity|]); destruct Hy. }
  specialize (B tr Htr a Ha).
  assert (T : (tokens m (arc_place a) < 10)%N).
  { unfold tokens. destruct Hr as [<-|[<-|[<-|[]]]]; (destruct (arc_place a) as [|[|[|[|n]]]]; vm_compute; reflexivity). }
  assert (Hbig : (20 < 2 ^ 32 - 1)%N) by (vm_compute; reflexivity). lia.
Qed.
Definition wb_of (r : res (wst * bool)) : option (list rslt * list (res (list nat)) * bool) :=
  match r with Ok (s, b) => Some (v_res s, map ev_trace (v_log s), b) | _ => None end.
Lemma wa_one : walkable wa None [] /\ exists s e,
  walk wa None [] (map pure_query [at_least 2 1]) (fun _ => 0%N) (fun i r => (r, false)) true true 0 (fun _ => 0%N) accept_exact 3 10
    (map (fun _ => Unknown) [at_least 2 1]) (map (fun _ => 0%N) [at_least 2 1]) 0 5 2 = Ok (s, true) /\ v_log s = [] ++ e :: [] /\ ev_trace e = Ok [0; 1].
Proof.
  split; [apply wa_walkable|].
  set (r := walk wa None [] (map pure_query [at_least 2 1]) (fun _ => 0%N) (fun i r => (r, false)) true true 0 (fun _ => 0%N) accept_exact 3 10
    (map (fun _ => Unknown) [at_least 2 1]) (map (fun _ => 0%N) [at_least 2 1]) 0 5 2).
  assert (E : wb_of r = Some ([Satisfied], [Ok [0; 1]], true)) by (vm_compute; reflexivity).
  clearbody r. destruct r as [[s b]| | |]; cbn [wb_of] in E; try discriminate. injection E as _ E ->.
  destruct (v_log s) as [|e [|]] eqn:El; try discriminate. injection E as E. exists s, e. split; [reflexivity|]. split; [exact El|exact E].
Qed.
Lemma run_head : forall net m t w m', run net m (t :: w) m' -> exists m1, step net m t m1.
Proof. intros net m t w m' R. inversion R; subst. eauto. Qed.

(** The trace printed for the second query is not a run: printing the first trace removed
    its transitions from the state set. *)
Lemma second_trace_wrong : exists net fs rnd s e w,
  walkable net None [] /\
  walk net None [] (map pure_query fs) (fun _ => 0%N) (fun i r => (r, false)) true true 0 rnd accept_exact 3 10
    (map (fun _ => Unknown) fs) (map (fun _ => 0%N) fs) 0 5 2 = Ok (s, true) /\
  In e (v_log s) /\ ev_result e = Satisfied /\ ev_trace e = Ok w /\ forall m, ~ run (to_pnet net) (cn_init net) w m.
Proof.
  exists wa, [at_least 1 1; at_least 2 1], (fun _ => 0%N).
  assert (T := @satisfied_ok wa None [] (wa_walkable None) [at_least 1 1; at_least 2 1] (fun _ => 0%N) (fun i r => (r, false)) true true 0%N (fun _ => 0%N) accept_exact 3 10
    (map (fun _ => Unknown) [at_least 1 1; at_least 2 1]) (map (fun _ => 0%N) [at_least 1 1; at_least 2 1]) 0 5%N 2%N).
  set (r := walk wa None [] (map pure_query [at_least 1 1; at_least 2 1]) (fun _ => 0%N) (fun i r => (r, false)) true true 0 (fun _ => 0%N) accept_exact 3 10
    (map (fun _ => Unknown) [at_least 1 1; at_least 2 1]) (map (fun _ => 0%N) [at_least 1 1; at_least 2 1]) 0 5 2) in *.
  assert (E : wb_of r = Some ([Satisfied; Satisfied], [Ok [1]; Ok [0]], true)) by (vm_compute; reflexivity).
  clearbody r. destruct r as [[s b]| | |]; cbn [wb_of] in E; try discriminate. injection E as _ E ->.
  destruct (v_log s) as [|e l] eqn:El; [discriminate|]. injection E as E _. exists s, e, [1]. split; [apply wa_walkable|]. split; [reflexivity|].
  rewrite El. split; [left; reflexivity|]. split.
  { destruct (T s true [] e l) as (X & _); auto; [discriminate|cbn; lia]. }
  split; [exact E|]. intros m R. apply run_head in R. destruct R as (m1 & tr & Hn & (He & _)). apply enabledb_spec in He.
  assert (F : match nth_error (pn_trans (to_pnet wa)) 1 with Some tr => enabledb tr (cn_init wa) | None => false end = false) by (vm_compute; reflexivity).
  rewrite Hn, He in F. discriminate.
Qed.

(** Two queries true in the same marking: the second trace is taken from an empty stack. *)
Lemma second_trace_undefined : exists net fs rnd, walkable net None [] /\
  walk net None [] (map pure_query fs) (fun _ => 0%N) (fun i r => (r, false)) true true 0 rnd accept_exact 3 10
    (map (fun _ => Unknown) fs) (map (fun _ => 0%N) fs) 0 5 2 = UB.
Proof. exists wa, [at_least 1 1; at_least 1 1], (fun _ => 0%N). split; [apply wa_walkable|]. vm_compute. reflexivity. Qed.

(** One token becomes two. *)
Definition wk_calls : list call := [CPlace 10 1; CPlace 11 0; CTrans 20 0; CIn 10 20 false 1; COut 20 11 2].
Definition wk := built wk_calls.
Lemma wk_walkable : walkable wk None [].
Proof. apply walkable_by; try easy_net; [vm_compute; reflexivity|apply mark_by; vm_compute; reflexivity|left; reflexivity]. Qed.
Lemma wk_searchable : searchable wk 1.
Proof.
  destruct wk_walkable as (L & _ & Mi & _). split; [exact L|]. split; [vm_compute; reflexivity|]. split; [exact Mi|].
  intros l ND Hl. assert (I : incl l [[1; 0]; [0; 2]]%N).
  { intros m Hm. apply (@closed_all wk 1%N [[1; 0]; [0; 2]]%N L Mi); [vm_compute; reflexivity|]. apply Hl. exact Hm. }
  apply NoDup_incl_length in I; [|exact ND]. cbn [length] in I. assert ((2 <= 2 ^ 32)%N) by (vm_compute; discriminate). lia.
Qed.
(** With the token bound 1 the walk reports a goal that holds only beyond the bound; the
    other searches report that it cannot be reached (C07). *)
Lemma beyond_bound : exists net f rnd s e, walkable net None [] /\ searchable net 1 /\
  walk net None [] [pure_query f] (fun _ => 0%N) (fun i r => (r, false)) true true 1 rnd accept_exact 3 10 [Unknown] [0%N] 0 5 2 = Ok (s, true) /\
  In e (v_log s) /\ ev_query e = 0 /\ ev_result e = Satisfied /\ forall m, kreach (to_pnet net) 1 (cn_init net) m -> f m = false.
Proof.
  exists wk, (at_least 1 2), (fun _ => 0%N).
  set (r := walk wk None [] [pure_query (at_least 1 2)] (fun _ => 0%N) (fun i r => (r, false)) true true 1 (fun _ => 0%N) accept_exact 3 10 [Unknown] [0%N] 0 5 2).
  assert (E : match r with Ok (s, b) => b = true /\ map (fun e => (ev_query e, ev_result e)) (v_log s) = [(0, Satisfied)] | _ => False end) by (vm_compute; auto).
  clearbody r. destruct r as [[s b]| | |]; try contradiction. destruct E as (-> & E). destruct (v_log s) as [|e l] eqn:El; [discriminate|]. injection E as E1 E2 _.
  exists s, e. split; [apply wk_walkable|]. split; [apply wk_searchable|]. split; [reflexivity|]. rewrite El. split; [left; reflexivity|]. split; [exact E1|]. split; [exact E2|].
  intros m (w & R & B). destruct wk_walkable as (L & _ & Mi & _).
  assert (I : In m [[1; 0]; [0; 2]]%N) by (apply (@closed_all wk 1%N [[1; 0]; [0; 2]]%N L Mi); [vm_compute; reflexivity|exists w; split; assumption]).
  specialize (B w [] m (eq_sym (app_nil_r w)) R). destruct I as [<-|[<-|[]]]; [reflexivity|]. vm_compute in B. discriminate.
Qed.

(** A transition that changes nothing: a walk of 2^31 steps overflows the step counter. *)
Definition wl_calls : list call := [CPlace 10 1; CTrans 20 0; CIn 10 20 false 1; COut 20 10 1].
Definition wl := built wl_calls.
Lemma wl_walkable : walkable wl None [].
Proof. apply walkable_by; try easy_net; [vm_compute; reflexivity|apply mark_by; vm_compute; reflexivity|left; reflexivity]. Qed.
Definition wl_never (m : list N) : bool := false.
Lemma wl_steps : forall depth, (2147483647 < depth)%N -> forall n c s, (c + N.of_nat n = 2147483647)%N ->
  v_next s = [1%N] -> v_pots s = [1%N] -> v_ndist s = 0%N -> v_res s = [Unknown] ->
  one_walk [pure_query wl_never] (fun _ => 0%N) (fun i r => (r, false)) false (net_stream wl) 0 false (fun _ => 0%N) accept_exact (S n) c depth s = UB.
Proof.
  assert (E : net_stream wl [1%N] = ([(0, [1%N])], Ok tt)) by (vm_compute; reflexivity).
  intros depth Hd. induction n as [|n IH]; intros c s Hc H1 H2 H3 H4; cbn [one_walk].
  - rewrite (proj2 (N.ltb_lt c depth)) by lia. unfold next_step. rewrite H1. cbn [rd nth_error bind]. change (1 =? no_mark)%N with false. cbn [bind]. rewrite E. cbn [fst snd candidates bind].
    unfold wcheck. cbn [wcheck_loop inc_explored v_res]. rewrite H4. cbn [nth is_unknown pure_query wl_never snd bind fst wcheck_loop]. unfold wheur. rewrite andb_false_r. cbn [bind fst snd].
    unfold compute_candidate. cbn [set_qst inc_explored v_pots N.eqb negb andb]. rewrite H2. cbn [rd nth_error bind fst snd andb].
    rewrite (proj2 (N.eqb_eq c 2147483647)) by lia. reflexivity.
  - rewrite (proj2 (N.ltb_lt c depth)) by lia. unfold next_step. rewrite H1. cbn [rd nth_error bind]. change (1 =? no_mark)%N with false. cbn [bind]. rewrite E. cbn [fst snd candidates bind].
    unfold wcheck. cbn [wcheck_loop inc_explored v_res]. rewrite H4. cbn [nth is_unknown pure_query wl_never snd bind fst wcheck_loop]. unfold wheur. rewrite andb_false_r. cbn [bind fst snd].
    unfold compute_candidate. cbn [set_qst inc_explored v_pots N.eqb negb andb]. rewrite H2. cbn [rd nth_error bind fst snd andb].
    rewrite (proj2 (N.eqb_neq c 2147483647)) by lia. apply IH; [lia| | | |]; cbn [inc_expanded v_next v_pots v_ndist v_res v_cdist v_total]; rewrite ?H3; try (vm_compute; reflexivity).
Qed.
Lemma long_walk_undefined : exists net f rnd fuel wfuel, walkable net None [] /\
  walk net None [] [pure_query f] (fun _ => 0%N) (fun i r => (r, false)) false false 0 rnd accept_exact fuel wfuel [Unknown] [0%N] 0 3000000000 0 = UB.
Proof.
  assert (X : exists n, N.of_nat n = 2147483647%N) by (exists (N.to_nat 2147483647); apply N2Nat.id). destruct X as (n & Hn).
  exists wl, wl_never, (fun _ => 0%N), 1, (S n). split; [apply wl_walkable|].
  unfold walk, random_walk. assert (Ep : cn_places wl = 1) by (vm_compute; reflexivity). assert (Et : cn_ntrans wl = 1) by (vm_compute; reflexivity).
  assert (Ei : cn_init wl = [1%N]) by (vm_compute; reflexivity). rewrite Ep, Et, Ei. cbn [rd nth_error bind repeat init_pots]. unfold wr. cbn [length Nat.ltb Nat.leb Base.upd bind].
  unfold wcheck. cbn [wcheck_loop v_res nth is_unknown pure_query wl_never snd fst bind]. unfold wheur. rewrite andb_false_r. cbn [bind fst snd wcheck_loop]. cbn [walks walk_gen].
  rewrite wl_steps; [reflexivity| | | | | |]; try reflexivity. rewrite Hn. reflexivity.
Qed.

(** The runs of [wa]. *)
Lemma wa_inner : inner_run (to_pnet wa) 0 (cn_init wa) [0; 1] [0; 0; 1]%N.
Proof.
  split.
  - assert (E : cn_init wa = [1; 0; 0]%N) by (vm_compute; reflexivity). rewrite E.
    assert (X : forall m t m', mark_ok (cn_places wa) m -> In (t, m') (fst (net_stream wa m)) -> step (to_pnet wa) m t m').
    { intros m t m' Hm Hi. apply (proj1 (gen_sound (wa_walkable None) Hm) t m' Hi). }
    assert (S1 : step (to_pnet wa) [1; 0; 0]%N 0 [0; 1; 0]%N) by (apply X; [apply mark_by; vm_compute; reflexivity|vm_compute; auto]).
    assert (S2 : step (to_pnet wa) [0; 1; 0]%N 1 [0; 0; 1]%N) by (apply X; [apply mark_by; vm_compute; reflexivity|vm_compute; auto]).
    econstructor; [exact S1|]. econstructor; [exact S2|constructor].
  - intros. reflexivity.
Qed.
