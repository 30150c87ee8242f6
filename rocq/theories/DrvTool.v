(** The main function with the search, the CTL engine and the rewriting of C11. *)
From Verif Require Import Base BaseLemmas NetSpec NetModel NetProofs PqlSyntax PqlSpec PqlModel PqlProofs PqlRuns QuerySpec QueryModel QueryClass QueryProofs StoreModel StoreSpec StoreProofs
  SearchModel SearchSpec SearchProofs SearchMain QueueModel StubModel StubSearch CtlModel CtlProofs CtlNet CtlFrag CtlMain LtlSpec LtlModel LtlMain LtlQuerySpec LtlQueryModel LtlQueryProofs CmpModel CmpSpec CmpSearch CmpProofs CmpMain
  SynSpec SynModel SynMain DrvModel DrvSpec DrvProofs DrvMain DrvSearch.

(** ** The synthesis engine *)
Section Synth.
  Variable net : cnet.
  Hypothesis L : layout net.
  Hypothesis Hpl : 0 < cn_places net.
  Hypothesis Hsm : (N.of_nat (cn_ntrans net) < 2 ^ 32)%N.
  Hypothesis Hi : mark_ok (cn_places net) (cn_init net).
  Hypothesis Hno : no_overflow net.
  Hypothesis Hfree : forall m, reachable (to_pnet net) (cn_init net) m -> ~ exists t, controllable net t = true /\ step (to_pnet net) m t m.
  Notation P := (to_pnet net).
  Notation ctrl := (controllable net).

  Lemma play_reach : forall s f, play P ctrl s (cn_init net) f -> forall i, reachable P (cn_init net) (f i).
  Proof.
    intros s f (F0 & F) i. induction i as [|i IH]; [rewrite F0; exists []; constructor|].
    destruct (F i) as [[(t & _ & H)|(t & _ & _ & H)]|(_ & ->)]; [| |exact IH].
    - destruct IH as (w & Hw). exists (w ++ [t]). eapply run_snoc; eauto.
    - destruct IH as (w & Hw). exists (w ++ [t]). eapply run_snoc; eauto.
  Qed.
  Lemma pred_sat : forall g m, atomic g = true -> reachable P (cn_init net) m -> (goal_fn net g m = true <-> sat P m g).
  Proof.
    intros g m Ag R. assert (X := Hi). apply mark_ok_fits in X. destruct X as (X1 & X2). apply goal_fn_sat; auto.
    - apply (CtlMain.reach_ok L X1 X2 Hno R).
    - apply (CtlMain.reach_fits L Hpl X1 X2 Hno R).
  Qed.
  Theorem run_synth_right : forall pick fuel i c b, run_synth pick fuel net i c = Ok b -> (b = true <-> controls net c).
  Proof.
    intros pick fuel i c b. unfold run_synth, controls. destruct c; try discriminate; destruct (atomic c) eqn:Ag; try discriminate.
    - destruct (synthesize net false (goal_fn net c) 0 (pick i) fuel) as [[s a]| | |] eqn:E; try discriminate. cbn [bind snd]. intros X. injection X as <-.
      assert (W : forall g, wins_reach P ctrl g (fun m => goal_fn net c m = true) 0 (cn_init net) <-> wins_reach P ctrl g (fun m => sat P m c) 0 (cn_init net)).
      { intros g. split; intros W f Hf; destruct (W f Hf) as (j & A & B); exists j; (split; [|exact B]); apply (pred_sat c (f j) Ag (play_reach _ _ Hf j)); exact A. }
      destruct a; split; [intros _|reflexivity|discriminate|].
      + destruct (reach_yes net false (goal_fn net c) 0 (pick i) L Hsm Hi fuel s eq_refl E) as (g & V & _ & G). exists g. split; [exact V|]. apply W. exact G.
      + intros (g & V & G). exfalso. apply (reach_no net false (goal_fn net c) 0 (pick i) L Hsm Hi fuel s eq_refl E g V). apply W. exact G.
    - destruct (synthesize net true (goal_fn net c) 0 (pick i) fuel) as [[s a]| | |] eqn:E; try discriminate. cbn [bind snd]. intros X. injection X as <-.
      assert (W : forall g, wins_safe P ctrl g (fun m => goal_fn net c m = true) 0 (cn_init net) <-> wins_safe P ctrl g (fun m => sat P m c) 0 (cn_init net)).
      { intros g. split; intros W f Hf j; destruct (W f Hf j) as (A & B); (split; [|exact B]); apply (pred_sat c (f j) Ag (play_reach _ _ Hf j)); exact A. }
      destruct a; split; [intros _|reflexivity|discriminate|].
      + destruct (safe_yes net true (goal_fn net c) 0 (pick i) L Hsm Hi fuel s eq_refl E) as (g & V & _ & G). exists g. split; [exact V|]. apply W. exact G.
      + intros (g & V & G). exfalso. apply (safe_no net true (goal_fn net c) 0 (pick i) L Hsm Hi fuel s eq_refl Hfree E g V). apply W. exact G.
  Qed.
End Synth.

Section Tool.
  Variable o : dopts.
  Variable net : cnet.
  Hypothesis HS : searchable net 0.
  Hypothesis Hpl : 0 < cn_places net.
  Hypothesis Hno : no_overflow net.
  Variable st : QueueModel.strategy.
  Hypothesis Hst : strategy_ok st.
  Hypothesis Or : o_reduce o = false.
  Hypothesis Ot : o_tar o = false.
  Hypothesis Ol : o_ltl o = false.
  Variable qs : list dq.
  Variable fuel0 : nat.
  Notation pushed c := (push (net_deadb net) (cn_init net) true fuel0 false false c).
  Hypothesis Hq : forall c, In (QPlain c) qs -> exists r, ctl c = true /\ in_range c = true /\ pushed c = Ok r.
  Hypothesis Hctrl : (exists c, In (QControl c) qs) -> (N.of_nat (cn_ntrans net) < 2 ^ 32)%N /\
    forall m, reachable (to_pnet net) (cn_init net) m -> ~ exists t, controllable net t = true /\ step (to_pnet net) m t m.
  Variable engine : nat -> cond -> res bool.
  Hypothesis He : forall i c r b, In (QPlain c) qs -> pushed c = Ok r -> engine i r = Ok b -> (b = true <-> sat (to_pnet net) (cn_init net) r).
  Notation simplify := (map (push_query net fuel0)).

  Lemma start : start_ok net.
  Proof. pose proof HS as (L & _ & Hi & _). apply mark_ok_fits in Hi. destruct Hi as (A & B). split; [exact L|]. split; [exact Hpl|]. split; [exact A|exact B]. Qed.
  Lemma push_const : forall b, push_query net fuel0 (QPlain (CBool b)) = QPlain (CBool b).
  Proof. intros b. unfold push_query. destruct fuel0 as [|f]; [reflexivity|destruct b; reflexivity]. Qed.
  Lemma push_true : forall c r, ctl c = true -> in_range c = true -> pushed c = Ok r -> (sat (to_pnet net) (cn_init net) r <-> sat (to_pnet net) (cn_init net) c).
  Proof. destruct start as (L & H1 & H2 & H3). intros c r A B D. apply (push_ok net fuel0 c r L H1 H2 H3 Hno A B D). Qed.
  (** each query is a constant, the rewritten original, or a control query *)
  Lemma shape : forall i q, nth_error (rewritten simplify net qs) i = Some q ->
    (exists c, nth_error qs i = Some (QControl c) /\ q = QControl c /\ initial net (QControl c) = QControl c) \/
    exists c r, nth_error qs i = Some (QPlain c) /\ ctl c = true /\ in_range c = true /\ pushed c = Ok r /\
      ((exists b, q = QPlain (CBool b) /\ initial net (QPlain c) = QPlain (CBool b)) \/ q = QPlain r /\ initial net (QPlain c) = QPlain c).
  Proof.
    intros i q H. unfold rewritten in H. rewrite !nth_error_map in H. destruct (nth_error qs i) as [q0|] eqn:E; [|discriminate H]. cbn [option_map] in H. injection H as <-.
    destruct q0 as [c|c]; [right|left; exists c; auto].
    destruct (Hq c (nth_error_In _ _ E)) as (r & A & B & D). exists c, r. split; [reflexivity|]. split; [exact A|]. split; [exact B|]. split; [exact D|].
    unfold initial, decide. destruct (evaluate (net_deadb net) (cn_init net) c).
    - left. exists true. rewrite push_const. auto.
    - left. exists false. rewrite push_const. auto.
    - right. split; [|reflexivity]. unfold push_query. rewrite D. reflexivity.
  Qed.
  Lemma tool_parts : forall reduce ltl pick sfuel tar dist rnd fuel,
    parts_right o simplify reduce (fun _ => engine) ltl (run_synth pick sfuel) (fun n => run_search st dist rnd fuel n) tar net qs.
  Proof.
    intros reduce ltl pick sfuel tar dist rnd fuel.
    assert (ST : same_truth (fun _ => True) net (map (initial net) qs) net (rewritten simplify net qs)).
    { split; [unfold rewritten; apply map_length|]. intros i q q' _ H H'. destruct (shape i q' H') as [(c & E & -> & I)|(c & r & E & A & B & D & X)];
      [rewrite nth_error_map, E in H; cbn [option_map] in H; injection H as <-; rewrite I; reflexivity|].
      rewrite nth_error_map, E in H. cbn [option_map] in H. injection H as <-. destruct X as [(b & -> & ->)|(-> & ->)]; [reflexivity|]. cbn [true_of]. symmetry. apply push_true; auto. }
    split; [exact ST|]. intros net2 qs2 E. rewrite Or in E. destruct E as (-> & ->).
    assert (LL : length (rewritten simplify net qs) = length qs) by (unfold rewritten; rewrite !map_length; reflexivity).
    assert (Kind : forall i q, nth_error (rewritten simplify net qs) i = Some q -> exists sv, nth i (outcomes o simplify net qs) OSynth = fst (fst (classify1 o i sv q))).
    { intros i q H. assert (X : exists sv, nth_error (combine (map (solved net) qs) (rewritten simplify net qs)) i = Some (sv, q)).
      { assert (Hi : i < length (map (solved net) qs)) by (rewrite map_length, <- LL; apply nth_error_Some; congruence).
        clear - H Hi. revert i H Hi. generalize (rewritten simplify net qs) as l2. generalize (map (solved net) qs) as l1. induction l1 as [|x l1 IH]; intros [|y l2] [|i] H Hi; cbn in *; try discriminate; try lia; [injection H as ->; eauto|]. apply IH; auto. lia. }
      destruct X as (sv & X). exists sv. unfold outcomes, classified. rewrite (classify_nth o _ 0 i sv q X). reflexivity. }
    split; [apply layout_wf, start|]. split; [split; [reflexivity|]; intros i q q' _ H H'; rewrite H in H'; injection H' as <-; reflexivity|].
    split; [intros i q q' _ H H'; rewrite H in H'; injection H' as <-; destruct q; cbn; auto|].
    split; [|split; [|split]].
    - intros i q b K H Ee. destruct (shape i q H) as [(c & E & -> & _)|(c & r & E & A & B & D & X)];
        [exfalso; destruct (Kind _ _ H) as (sv & Y); rewrite Y in K; pose proof (classify1_kind o i sv (QControl c)) as Z; destruct (fst (fst (classify1 o i sv (QControl c)))); try discriminate K; destruct Z as (c' & Z & _); discriminate Z|].
      destruct X as [(b' & -> & _)|(-> & _)].
      + destruct (Kind _ _ H) as (sv & Y). rewrite Y in K. exfalso. revert K. unfold classify1. destruct b'; [discriminate|]. destruct (sv && o_trace o); discriminate.
      + apply (He i c r b); auto. eapply nth_error_In; eauto.
    - intros i q b K H _. exfalso. destruct (Kind _ _ H) as (sv & Y). rewrite Y in K. pose proof (classify1_kind o i sv q) as Z. destruct (fst (fst (classify1 o i sv q))); try discriminate K. destruct Z as (c & _ & Z). congruence.
    - intros i q b K H Ee. destruct (Kind _ _ H) as (sv & Y). rewrite Y in K. pose proof (classify1_kind o i sv q) as Z. destruct (fst (fst (classify1 o i sv q))); try discriminate K. destruct Z as (c & ->).
      destruct (shape i _ H) as [(c' & E & X & _)|(c' & r & _ & _ & _ & _ & [(b' & X & _)|(X & _)])]; try discriminate X. injection X as <-.
      destruct Hctrl as (N1 & N2); [exists c; eapply nth_error_In; eauto|]. destruct start as (L & _). pose proof HS as (_ & _ & Hi & _).
      apply (run_synth_right net L Hpl N1 Hi Hno N2 _ _ i c b Ee).
    - exists (fun _ => True). split; [auto|]. rewrite Ot. cbn [andb]. split; [discriminate|]. intros _. apply run_search_right; auto.
  Qed.
  Theorem tool_good : forall reduce ltl pick sfuel siphon tar dist rnd fuel,
    good net qs (fun i => i < length qs) (fun i => i < length qs /\ o_verify o = true /\ o_approx o = false /\ ((forall q, In q qs -> is_control q = false) \/ length qs = 1))
      (driver o simplify reduce (fun _ => engine) ltl (run_synth pick sfuel) siphon (fun n => run_search st dist rnd fuel n) tar net qs).
  Proof.
    intros reduce ltl pick sfuel siphon tar dist rnd fuel. eapply good_weak; [apply driver_good; [exact start|apply tool_parts]|auto|].
    cbn beta. intros i (Hi & V & A & C). split; [exact Hi|]. split; [exact V|]. split; [exact A|]. split; [congruence|]. destruct C as [C|C]; [left|right; exact C]. intros q H.
    apply In_nth_error in H. destruct H as (j & H). destruct (shape j q H) as [(c & E & -> & _)|(c & r & _ & _ & _ & _ & [(b' & -> & _)|(-> & _)])]; try reflexivity.
    apply nth_error_In in E. apply (C _ E).
  Qed.
End Tool.

(** With the engine of C40, whatever its search orders. *)
Theorem tool_ok : forall o net st qs fuel0 cst cdist crnd cfuel comp big expand tr check addr choice fuels direct reduce ltl pick sfuel siphon tar dist rnd fuel,
  searchable net 0 -> 0 < cn_places net -> no_overflow net -> strategy_ok st -> strategy_ok cst ->
  o_reduce o = false -> o_tar o = false -> o_ltl o = false ->
  (forall c, In (QPlain c) qs -> exists r, ctl c = true /\ in_range c = true /\ push (net_deadb net) (cn_init net) true fuel0 false false c = Ok r /\
     forall x, occurs x r -> ltl_shape x = true -> translates tr (SNot (fst (to_spot comp big expand (fst (to_ltl x)) [])))) ->
  ((exists c, In (QControl c) qs) -> (N.of_nat (cn_ntrans net) < 2 ^ 32)%N /\
    forall m, reachable (to_pnet net) (cn_init net) m -> ~ exists t, controllable net t = true /\ step (to_pnet net) m t m) ->
  (forall i pos aut, answer_right (to_pnet net) (cn_init net) aut 0 (check i pos aut)) ->
  let d := driver o (map (push_query net fuel0)) reduce
    (fun _ i q => ctl_main (fun pos goals handle => search_reach net 0 false false cst (cdist i pos) (crnd i pos) (cfuel i pos) goals handle)
       (fun pos x => ltl_solve comp big expand tr (net_deadb net) (check i pos) x)
       (fun pos x => ctl_single_solve net x (addr i pos) (choice i pos) (fuels i pos)) net direct q)
    ltl (run_synth pick sfuel) siphon (fun n => run_search st dist rnd fuel n) tar net qs in
  verdicts_right net qs (fst d) /\ NoDup (verdicts (fst d)) /\
  (snd d = Ok tt -> o_verify o = true -> o_approx o = false -> (forall q, In q qs -> is_control q = false) \/ length qs = 1 ->
   forall i, i < length qs -> In i (verdicts (fst d))).
Proof.
  intros o net st qs fuel0 cst cdist crnd cfuel comp big expand tr check addr choice fuels direct reduce ltl pick sfuel siphon tar dist rnd fuel HS Hp Hno Hst Hcst Or Ot Ol Hq Hc Hs d.
  match goal with d := driver _ _ _ (fun _ => ?e) _ _ _ _ _ _ _ |- _ =>
    destruct (tool_good o net HS Hp Hno st Hst Or Ot Ol qs fuel0) with (engine := e) (reduce := reduce) (ltl := ltl) (pick := pick) (sfuel := sfuel) (siphon := siphon) (tar := tar) (dist := dist) (rnd := rnd) (fuel := fuel)
      as (A & B & _ & D) end.
  - intros c H. destruct (Hq c H) as (r & H1 & H2 & H3 & _). exists r. auto.
  - exact Hc.
  - intros i c r b H Hpu E. destruct (Hq c H) as (r' & H1 & H2 & H3 & H4). rewrite Hpu in H3. injection H3 as <-.
    pose proof HS as (L & _ & Hi & _). apply mark_ok_fits in Hi. destruct Hi as (X & Y). destruct (push_ok net fuel0 c r L Hp X Y Hno H1 H2 Hpu) as (_ & _ & Z). rewrite Z.
    eapply (answer_ok net cst (cdist i) (crnd i) (cfuel i) comp big expand tr (check i) (addr i) (choice i) (fuels i) direct fuel0 c r b); eauto.
  - fold d in A, B, D. split; [exact A|]. split; [exact B|]. intros E V Ap C i Hi. apply D; auto.
Qed.

(** Over-approximation of coloured nets: only negative answers of the search become verdicts. *)
Theorem approx_ok : forall net net' c g inv i r b, wf_pnet net -> is_reachability c = true -> prepare_for_reachability c = Ok (Some (g, inv)) ->
  forall m m', (attainable net m g -> attainable net' m' g) -> (r = NotSatisfied -> ~ attainable net' m' g) ->
  In (LFormula i b) (printed true false inv i r) -> (b = true <-> sat net m c).
Proof.
  intros net net' c g inv i r b W Hr Hp m m' Ho Hn Hi. apply is_reachability_spec in Hr. destruct (prepare_spec c Hr false) as (g2 & inv2 & Ep & _ & Hsem).
  unfold prepare_for_reachability in Hp. rewrite Ep in Hp. injection Hp as -> ->. rewrite (Hsem net m W).
  destruct r; cbn in Hi; try (destruct Hi as [Hi|[]]; discriminate Hi); try destruct Hi; fold (attainable net m g).
  assert (X : ~ attainable net m g) by (intros X; apply (Hn eq_refl), Ho; exact X).
  destruct inv; cbn in Hi; destruct Hi as [Hi|[]]; injection Hi as <-; split; auto; try discriminate; intros Y; contradiction.
Qed.

(** The loop over the queries rewrites all of them, if the marking fits the solver or the solver
    is off. *)
Lemma simplify_map : forall net fuel lp timeout l, (timeout = true -> forall p, (tokens (cn_init net) p < 2 ^ 31)%N) ->
  simplify_queries net fuel lp timeout l = map (fun q => (if timeout then lp else fun q => q) (push_query net fuel q)) l.
Proof.
  intros net fuel lp timeout l H. unfold simplify_queries.
  assert (E : timeout && existsb (fun x => (2147483647 <? x)%N) (cn_init net) = false).
  { destruct timeout; [|reflexivity]. cbn [andb]. apply not_true_is_false. intros X. apply existsb_exists in X. destruct X as (x & A & B). apply N.ltb_lt in B.
    apply In_nth with (d := 0%N) in A. destruct A as (p & _ & <-). specialize (H eq_refl p). unfold tokens in H. change (2 ^ 31)%N with 2147483648%N in H. lia. }
  rewrite E. induction l as [|q l IH]; cbn; [reflexivity|]. rewrite IH. reflexivity.
Qed.
