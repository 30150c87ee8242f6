(** C10, C11, C12: evaluation and rewriting of formulas. *)
From Verif Require Import Base NetSpec NetModel NetProofs NetExamples PqlSyntax PqlSpec PqlModel PqlProofs PqlRuns.

(** The semantics is about something: every marking of a well-formed net starts a maximal
    run, so a formula cannot be satisfied together with its negation. *)
Theorem C10_runs_exist : forall net m, wf_pnet net -> exists pi, maximal net pi /\ pi 0 = m.
Proof. exact runs_exist. Qed.
Print Assumptions C10_runs_exist.

(** C10.  Evaluation in a marking answers true only if the formula is satisfied there and
    false only if it is not; without temporal operators it always answers.  Token counts
    fit in 32 bits; [deadb] is the deadlock test of the net. *)
Theorem C10_evaluation_sound : forall net deadb m c,
  wf_pnet net -> fits m -> (deadb m = true <-> dead net m) -> stf c = true ->
  (evaluate deadb m c = RTrue -> sat net m c) /\
  (evaluate deadb m c = RFalse -> ~ sat net m c) /\
  (atomic c = true -> evaluate deadb m c <> RUnknown).
Proof. exact evaluate_sat. Qed.
Print Assumptions C10_evaluation_sound.
(** Linear-time formulas: on every run from the marking. *)
Theorem C10_evaluation_sound_on_runs : forall net deadb pi c,
  maximal net pi -> fits (pi 0) -> (deadb (pi 0) = true <-> dead net (pi 0)) ->
  (evaluate deadb (pi 0) c = RTrue -> holds net pi c) /\ (evaluate deadb (pi 0) c = RFalse -> ~ holds net pi c).
Proof. exact evaluate_path. Qed.
Print Assumptions C10_evaluation_sound_on_runs.
(** Expressions: sums and products are normalised without changing their value, and the
    64-bit evaluation gives the exact value unless it overflows. *)
Theorem C10_sum_value : forall m l, den m (mk_plus l) = fold_right Z.add 0%Z (map (den m) l).
Proof. exact mk_plus_den. Qed.
Print Assumptions C10_sum_value.
Theorem C10_product_value : forall m l, den m (mk_mul l) = fold_right Z.mul 1%Z (map (den m) l).
Proof. exact mk_mul_den. Qed.
Print Assumptions C10_product_value.
Theorem C10_expression_value : forall m e,
  (exists v, eval64 m e = Ok v /\ v = den m e) \/ eval64 m e = UB.
Proof.
  intros m e. destruct (eval64_cases m e) as [(v & H)|H]; [left|right; exact H].
  exists v. split; [exact H|]. rewrite <- eval_den. exact (eval64_eval m e H).
Qed.
Print Assumptions C10_expression_value.

(** The deadlock test of the net is such a [deadb]. *)
Definition net_dead (net : cnet) (m : list N) : bool := match deadlocked net m with Ok b => b | _ => false end.
Lemma ex_wf : wf_pnet (to_pnet ex_net).
Proof.
  intros t Ht. apply In_nth_error in Ht. destruct Ht as (i & Hi).
  destruct (@net_trans_inv ex_net i t Hi) as (Hlt & ->). apply wf_net_trans; [exact ex_layout|exact Hlt].
Qed.
Definition ex_query : cond :=
  CAnd [CCmp OpLe (mk_plus [Pl 0; Lit 1; Ident (Pl 1)]) (Lit 4); CNot CDead;
        CEU (CCmp OpLt (Pl 1) (Lit 2)) (COr [CCmp OpEq (Pl 0) (Lit 3); CEX (CBool true)])].
Lemma ex_dead : net_dead ex_net [3; 0; 0]%N = true <-> dead (to_pnet ex_net) [3; 0; 0]%N.
Proof.
  assert (Hp : 0 < cn_places ex_net) by (vm_compute; lia).
  destruct (@deadlocked_spec ex_net [3; 0; 0]%N ex_layout Hp eq_refl) as (b & Hb & E). unfold net_dead. rewrite Hb. exact E.
Qed.
Lemma ex_fits : fits [3; 0; 0]%N.
Proof. intros p. do 3 (destruct p; [vm_compute; discriminate|]). destruct p; vm_compute; discriminate. Qed.
Example C10_case : wf_pnet (to_pnet ex_net) /\ fits [3; 0; 0]%N /\
  (net_dead ex_net [3; 0; 0]%N = true <-> dead (to_pnet ex_net) [3; 0; 0]%N) /\
  stf ex_query = true /\ evaluate (net_dead ex_net) [3; 0; 0]%N ex_query = RTrue.
Proof.
  split; [exact ex_wf|]. split; [exact ex_fits|]. split; [exact ex_dead|]. split; vm_compute; reflexivity.
Qed.
Example C10_case_false : evaluate (net_dead ex_net) [3; 0; 0]%N (CNot ex_query) = RFalse /\
  evaluate (net_dead ex_net) [3; 0; 0]%N (CAG (CCmp OpLe (Pl 0) (Lit 2))) = RFalse /\
  eval64 [3; 5]%N (Mul 2 [0; 1] [Minus (Lit 1)]) = Ok (-30)%Z /\
  eval64 [2 ^ 32 - 1]%N (Mul 1 [0; 0] []) = UB.
Proof. repeat split; vm_compute; reflexivity. Qed.

(** C11.  The formula returned by pushNegation (with an outer negation or without) is
    satisfied in exactly the same markings: in every marking when the initial marking is
    not used, in the initial marking otherwise.  [in_range] excludes comparisons of a place
    with a constant that is negative, does not fit 32 bits or makes the comparison vacuous,
    and comparisons of products with a common place; see the refuted statements. *)
Theorem C11_push_negation_preserves : forall net deadb m0 initrw fuel negated c r,
  wf_pnet net -> (initrw = true -> fits m0 /\ (deadb m0 = true <-> dead net m0)) ->
  stf c = true -> in_range c = true ->
  push deadb m0 initrw fuel false negated c = Ok r ->
  stf r = true /\ in_range r = true /\
  forall m, (initrw = true -> m = m0) -> (sat net m r <-> if negated then ~ sat net m c else sat net m c).
Proof. exact push_sat. Qed.
Print Assumptions C11_push_negation_preserves.
(** Linear-time formulas, on every run. *)
Theorem C11_push_negation_preserves_ltl : forall net fuel negated c r,
  ltl c = true -> in_range c = true -> push (fun _ => false) [] false fuel false negated c = Ok r ->
  ltl r = true /\ in_range r = true /\
  forall pi, maximal net pi -> (holds net pi r <-> if negated then ~ holds net pi c else holds net pi c).
Proof. exact push_ltl. Qed.
Print Assumptions C11_push_negation_preserves_ltl.
(** It does not run into an exception or an undefined operation. *)
Theorem C11_push_negation_defined : forall net deadb m0 initrw fuel nested negated c,
  (initrw = true -> fits m0 /\ (deadb m0 = true <-> dead net m0)) ->
  in_range c = true -> stf c = true \/ ltl c = true ->
  push deadb m0 initrw fuel nested negated c <> Throw /\ push deadb m0 initrw fuel nested negated c <> UB.
Proof. exact push_defined. Qed.
Print Assumptions C11_push_negation_defined.

Example C11_case :
  let c := CNot (CEG (COr [CNot (CEX (CBool true)); CCmp OpEq (Pl 0) (Lit 0); CEF (CAF (CCmp OpLe (Lit 1) (Pl 1)))])) in
  stf c = true /\ in_range c = true /\
  push (net_dead ex_net) [3; 0; 0]%N false 30 false false c =
    Ok (CAF (CAnd [CConj false [mkCons 0 1 u32max]; CNot CDead; CNot (CEF (CCmp OpLe (Lit 1) (Pl 1)))])) /\
  push (net_dead ex_net) [3; 0; 0]%N true 30 false true (CEF (COr [CBool false; CCmp OpLe (Lit 3) (Pl 0)])) = Ok (CBool false).
Proof. vm_compute. repeat split. Qed.
Example C11_case_ltl : ltl (CG (CU (CX (CBool true)) (CF (CCmp OpLe (Pl 0) (Lit 3))))) = true /\
  push_negation 30 (CG (CU (CX (CBool true)) (CF (CCmp OpLe (Pl 0) (Lit 3))))) =
    Ok (CNot (CF (CNot (CF (CCmp OpLe (Pl 0) (Lit 3)))))).
Proof. vm_compute. repeat split. Qed.

(** Finding: comparisons of two products with a common place are changed: 2*p < 3*p is
    rewritten to true although it is false in a marking with no token on p. *)
Theorem C11_products_refuted : exists net c r m,
  wf_pnet net /\ stf c = true /\ push_negation 10 c = Ok r /\ sat net m r /\ ~ sat net m c.
Proof.
  exists (mkPnet 1 []), (CCmp OpLt (mk_mul [Lit 2; Pl 0]) (mk_mul [Lit 3; Pl 0])), (CBool true), [0%N].
  assert (W : wf_pnet (mkPnet 1 [])) by (intros t []).
  split; [exact W|]. split; [reflexivity|]. split; [vm_compute; reflexivity|]. split.
  - intros pi _ _. reflexivity.
  - intros H. destruct (runs_exist _ [0%N] W) as (pi & M & P). specialize (H pi M P). cbn [holds] in H.
    rewrite P in H. vm_compute in H. discriminate H.
Qed.
Print Assumptions C11_products_refuted.

(** C12.  makeOr and makeAnd of formulas always succeed and yield a formula true in
    exactly the situations where some / every operand is true. *)
Theorem C12_makeOr_makeAnd_exact : forall isor l,
  Forall (fun c => in_range c = true /\ stf c = true) l ->
  exists r, make_log isor l = Ok r /\ in_range r = true /\ stf r = true /\
    forall net pi, holds net pi r <->
      if isor then exists c, In c l /\ holds net pi c else forall c, In c l -> holds net pi c.
Proof. exact make_log_sat. Qed.
Print Assumptions C12_makeOr_makeAnd_exact.
Example C12_case :
  let l := [CCmp OpLe (Lit 2) (Pl 1); CAnd [CCmp OpLt (Pl 0) (Lit 7); CCmp OpNe (Pl 0) (Lit 1)]; CConj false [mkCons 1 0 9]] in
  Forall (fun c => in_range c = true /\ stf c = true) l /\
  make_and l = Ok (CAnd [CConj false [mkCons 0 0 6; mkCons 1 2 9]; CCmp OpNe (Pl 0) (Lit 1)]).
Proof. split; [repeat constructor|vm_compute; reflexivity]. Qed.

(** Findings: without the range condition the statement is false.  A disjunction with the
    vacuous comparison 0 <= p loses it ... *)
Theorem C12_vacuous_refuted : exists l r m net pi,
  make_or l = Ok r /\ pi 0 = m /\ maximal net pi /\ (exists c, In c l /\ holds net pi c) /\
  evaluate (fun _ => true) m r = RFalse.
Proof.
  exists [CCmp OpLe (Lit 0) (Pl 0); CCmp OpLe (Lit 5) (Pl 1)]. eexists. exists [0; 0]%N, (mkPnet 2 []), (fun _ => [0; 0]%N).
  split; [vm_compute; reflexivity|]. split; [reflexivity|]. split.
  - intros i. right. split; [|reflexivity]. intros [|t] tr Ht; discriminate Ht.
  - split; [|vm_compute; reflexivity]. eexists. split; [left; reflexivity|]. vm_compute. discriminate.
Qed.
Print Assumptions C12_vacuous_refuted.
(** ... a conjunction with p <= -1 becomes satisfiable ... *)
Theorem C12_negative_refuted : exists l r m net pi c,
  make_and l = Ok r /\ pi 0 = m /\ maximal net pi /\ In c l /\ ~ holds net pi c /\
  evaluate (fun _ => true) m r = RTrue.
Proof.
  exists [CCmp OpLe (Pl 0) (Lit (-1)); CCmp OpLe (Lit 1) (Pl 1)]. eexists. exists [0; 1]%N, (mkPnet 2 []), (fun _ => [0; 1]%N).
  eexists. split; [vm_compute; reflexivity|]. split; [reflexivity|]. split.
  - intros i. right. split; [|reflexivity]. intros [|t] tr Ht; discriminate Ht.
  - split; [left; reflexivity|]. split; [|vm_compute; reflexivity]. vm_compute. intros H; apply H; reflexivity.
Qed.
Print Assumptions C12_negative_refuted.
(** ... and a constant of more than 32 bits is truncated: p <= 2^32 becomes p <= 0. *)
Theorem C12_truncated_refuted : exists l r m net pi,
  make_and l = Ok r /\ pi 0 = m /\ maximal net pi /\ (forall c, In c l -> holds net pi c) /\
  evaluate (fun _ => true) m r = RFalse.
Proof.
  exists [CCmp OpLe (Pl 0) (Lit (2 ^ 32)); CCmp OpLe (Lit 1) (Pl 1)]. eexists. exists [3; 1]%N, (mkPnet 2 []), (fun _ => [3; 1]%N).
  split; [vm_compute; reflexivity|]. split; [reflexivity|]. split.
  - intros i. right. split; [|reflexivity]. intros [|t] tr Ht; discriminate Ht.
  - split; [|vm_compute; reflexivity]. intros c [<-|[<-|[]]]; vm_compute; discriminate.
Qed.
Print Assumptions C12_truncated_refuted.
