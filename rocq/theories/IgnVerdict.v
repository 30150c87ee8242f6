(** The answers of the check of queries about numbers of tokens are right (C44). *)
From Verif Require Import Base BaseLemmas NetSpec NetModel ColSyntax ColSpec ExpSpec PqlSyntax PqlSpec PqlModel PqlProofs PqlRuns PqlPush PushRules PushProofs
  QueryModel QueryProofs CtlFrag IgnModel IgnSpec IgnCheck IgnMain.
From Coq Require Import Classical.

Notation holds := PqlSpec.holds.

(** ** Formulas about numbers of tokens *)
Lemma card_stf : forall c, card c = true -> stf c = true.
Proof.
  induction c using cond_ind'; cbn [card stf]; intros Hc; auto; try discriminate.
  - rewrite forallb_forall in *. rewrite Forall_forall in H. auto.
  - rewrite forallb_forall in *. rewrite Forall_forall in H. auto.
Qed.

Lemma fold_and_ext : forall (f g : cond -> Prop) l, (forall x, In x l -> f x <-> g x) ->
  (fold_right and True (map f l) <-> fold_right and True (map g l)).
Proof. induction l as [|x l IH]; intros H; cbn; [tauto|]. rewrite (H x (or_introl eq_refl)), IH by (intros; apply H; right; auto). tauto. Qed.
Lemma fold_or_ext : forall (f g : cond -> Prop) l, (forall x, In x l -> f x <-> g x) ->
  (fold_right or False (map f l) <-> fold_right or False (map g l)).
Proof. induction l as [|x l IH]; intros H; cbn; [tauto|]. rewrite (H x (or_introl eq_refl)), IH by (intros; apply H; right; auto). tauto. Qed.

Lemma card_net : forall c, card c = true -> forall net net' pi pi', pi 0 = pi' 0 -> holds net pi c <-> holds net' pi' c.
Proof.
  induction c using cond_ind'; cbn [card PqlSpec.holds]; intros Hc net net' pi pi' E; try discriminate; try tauto.
  - rewrite (IHc Hc net net' pi pi' E). tauto.
  - rewrite forallb_forall in Hc. rewrite Forall_forall in H. apply fold_and_ext. intros x I. apply H; auto.
  - rewrite forallb_forall in Hc. rewrite Forall_forall in H. apply fold_or_ext. intros x I. apply H; auto.
  - rewrite E. tauto.
  - rewrite E. tauto.
Qed.

Lemma sat_card : forall net m c, wf_pnet net -> card c = true -> (sat net m c <-> in_marking m c).
Proof.
  intros net m c W C. unfold in_marking. split.
  - intros H. destruct (runs_exist net m W) as (pi & M & P). refine (proj1 (card_net c C _ _ _ _ _) (H pi M P)). auto.
  - intros H pi M P. refine (proj2 (card_net c C _ _ _ _ _) H). auto.
Qed.

Lemma sat_EF_card : forall net m c, wf_pnet net -> card c = true ->
  (sat net m (CEF c) <-> exists m', reachable net m m' /\ in_marking m' c).
Proof.
  intros net m c W C. rewrite sat_EF by auto using card_stf. split; intros (m' & R & H); exists m'; split; auto; apply (sat_card net m' c W C); auto.
Qed.
Lemma sat_not_EF_card : forall net m c, wf_pnet net -> card c = true ->
  (sat net m (CNot (CEF c)) <-> ~ exists m', reachable net m m' /\ in_marking m' c).
Proof.
  intros net m c W C. rewrite sat_not; [|auto|cbn; auto using card_stf]. rewrite sat_EF_card; tauto.
Qed.

(** ** Negations *)
Lemma split_card : forall (visit : cond -> res cond) stop ef l nef other s,
  (forall c n, In c l -> visit c = Ok n -> card n = true) -> (forall n x, ef n = Some x -> card n = false) ->
  Forall (fun c => card c = true) other -> split_ops visit stop ef l nef other = Ok s ->
  match s with Stop c => card c = true | Parts nef' other' => nef' = nef /\ Forall (fun c => card c = true) other' end.
Proof.
  intros visit stop ef. induction l as [|c l IH]; intros nef other s Hv He Ho H; cbn [split_ops] in H; [injection H as <-; auto|].
  destruct (visit c) as [x| | |] eqn:E; try discriminate H. cbn [bind] in H. assert (Hf := Hv c x (or_introl eq_refl) E).
  assert (Hv' : forall c n, In c l -> visit c = Ok n -> card n = true) by (intros y z Hy; apply Hv; right; exact Hy).
  assert (G : match ef x with Some y => split_ops visit stop ef l (nef ++ [y]) other | None => split_ops visit stop ef l nef (other ++ [x]) end = Ok s ->
    match s with Stop c => card c = true | Parts nef' other' => nef' = nef /\ Forall (fun c => card c = true) other' end).
  { intros K. destruct (ef x) as [y|] eqn:En; [rewrite (He x y En) in Hf; discriminate|].
    apply (IH nef (other ++ [x]) s Hv' He); [apply Forall_app; auto|exact K]. }
  destruct x; try (apply G; exact H). destruct (Bool.eqb b stop); [injection H as <-; reflexivity|]. apply (IH nef other s Hv' He Ho H).
Qed.
Definition mk_card := @make_log_P card (fun _ => eq_refl) (fun _ => eq_refl) (fun _ _ => eq_refl) (fun _ => eq_refl).

Lemma push_card : forall deadb m0 fuel nested negated c r, card c = true -> push deadb m0 false fuel nested negated c = Ok r -> card r = true.
Proof.
  intros deadb m0. induction fuel as [|f IH]; intros nested negated c r Hc H; [discriminate H|].
  assert (RW : forall x, bind x (fun y => Ok (init_rw deadb m0 false nested y)) = Ok r -> x = Ok r).
  { intros x K. apply bindR in K. destruct K as (y & K1 & K2). unfold init_rw in K2. rewrite andb_false_r in K2. congruence. }
  assert (LA : forall visit l, (forall c n, In c l -> visit c = Ok n -> card n = true) -> push_and visit l = Ok r -> card r = true).
  { intros visit l Hv K. unfold push_and in K. destruct (split_ops visit false as_nef l [] []) as [s| | |] eqn:E; try discriminate K. cbn [bind] in K.
    apply split_card in E; [|exact Hv| |constructor].
    2:{ intros n x Hx. destruct n; try discriminate Hx. destruct n; try discriminate Hx. reflexivity. }
    destruct s as [c'|nef other]; [injection K as <-; exact E|]. destruct E as (-> & E2). unfold finish_and in K.
    destruct other as [|y other]; [injection K as <-; reflexivity|]. destruct other as [|z other]; [injection K as <-; inversion E2; auto|]. apply (mk_card _ _ _ E2 K). }
  assert (LO : forall visit l, (forall c n, In c l -> visit c = Ok n -> card n = true) -> push_or visit l = Ok r -> card r = true).
  { intros visit l Hv K. unfold push_or in K. destruct (split_ops visit true as_ef l [] []) as [s| | |] eqn:E; try discriminate K. cbn [bind] in K.
    apply split_card in E; [|exact Hv| |constructor].
    2:{ intros n x Hx. destruct n; try discriminate Hx. reflexivity. }
    destruct s as [c'|nef other]; [injection K as <-; exact E|]. destruct E as (-> & E2). unfold finish_or in K.
    destruct other as [|y other]; [injection K as <-; reflexivity|]. destruct other as [|z other]; [injection K as <-; inversion E2; auto|]. apply (mk_card _ _ _ E2 K). }
  cbn [PqlModel.push] in H. destruct c as [b| |c|l|l|o a b|neg cs|c|c|c|c|c|c|a b|a b|c|c|c|c|c|a b]; cbn [card] in Hc; try discriminate Hc.
  - apply RW in H. injection H as <-. reflexivity.
  - apply RW in H. apply (IH _ _ _ _ Hc H).
  - rewrite forallb_forall in Hc. apply RW in H. destruct negated; [apply LO in H|apply LA in H]; auto; intros x n Hx; apply IH; auto.
  - rewrite forallb_forall in Hc. apply RW in H. destruct negated; [apply LA in H|apply LO in H]; auto; intros x n Hx; apply IH; auto.
  - assert (Cm : forall y : cond, match y with CBool _ | CCmp _ _ _ => True | _ => False end -> card y = true) by (intros y; destruct y; try contradiction; reflexivity).
    destruct o; apply RW in H.
    + injection H as <-. unfold push_equal. destruct (cancel a b) as [a' b']. apply Cm.
      repeat match goal with |- context [if ?x then _ else _] => destruct x end; exact I.
    + injection H as <-. unfold push_equal. destruct (cancel a b) as [a' b']. apply Cm.
      repeat match goal with |- context [if ?x then _ else _] => destruct x end; exact I.
    + destruct (cancel a b) as [a' b']. injection H as <-. apply Cm. repeat match goal with |- context [if ?x then _ else _] => destruct x end; exact I.
    + destruct (cancel a b) as [a' b']. injection H as <-. apply Cm. repeat match goal with |- context [if ?x then _ else _] => destruct x end; exact I.
  - apply RW in H. injection H as <-. reflexivity.
Qed.

Lemma card_not_temporal : forall c, card c = true -> temporal c = false.
Proof.
  induction c using cond_ind'; cbn [card temporal]; intros Hc; auto; try discriminate.
  - rewrite forallb_forall in Hc. rewrite Forall_forall in H. destruct (existsb temporal l) eqn:E; auto. apply existsb_exists in E. destruct E as (x & I & E). rewrite H in E; auto; discriminate.
  - rewrite forallb_forall in Hc. rewrite Forall_forall in H. destruct (existsb temporal l) eqn:E; auto. apply existsb_exists in E. destruct E as (x & I & E). rewrite H in E; auto; discriminate.
Qed.

(** The formula whose reachability decides the query. *)
Fixpoint goal_of (q : cond) : bool * cond :=
  match q with
  | CEF c => (false, c)
  | CAG c => (true, CNot c)
  | CNot q => let '(b, c) := goal_of q in (negb b, c)
  | _ => (false, q)
  end.

Lemma const_maximal : forall m, maximal (mkPnet 0 []) (fun _ : nat => m).
Proof.
  intros m i. right. split; auto. intros t tr Q. destruct t; discriminate Q.
Qed.

Lemma push_same : forall deadb m0 f n c a, card c = true -> in_range c = true -> push deadb m0 false f n false c = Ok a ->
  in_range a = true /\ forall m, in_marking m a <-> in_marking m c.
Proof.
  intros deadb m0 f n c a C R H.
  pose proof (@PushProofs.push_ok (mkPnet 0 []) deadb m0 false (fun E => match Bool.diff_false_true E with end) f true n false c) as G.
  rewrite H in G. destruct G as [G1 G2]. { unfold cls. rewrite R, (card_stf c C). reflexivity. }
  split; [unfold cls in G1; apply andb_prop in G1; tauto|]. intros m. apply (G2 (fun _ => m)). split; [apply const_maximal|]. intros _ D. discriminate D.
Qed.

Lemma push_shape : forall deadb m0 f n negated q r, reach_query q = true -> in_range q = true ->
  push deadb m0 false f n negated q = Ok r ->
  exists a, card a = true /\ in_range a = true /\ r = notif (xorb (fst (goal_of q)) negated) (CEF a) /\ forall m, in_marking m a <-> in_marking m (snd (goal_of q)).
Proof.
  intros deadb m0. induction f as [|f IH]; intros n negated q r Q R H; [discriminate H|].
  destruct q as [b| |q|l|l|o a b|neg cs|c|c|c|c|c|c|a b|a b|c|c|c|c|c|a b]; cbn [reach_query] in Q; try discriminate Q; cbn [PqlModel.push] in H.
  - apply bindR in H. destruct H as (y & K1 & K2). unfold init_rw in K2. rewrite andb_false_r in K2. injection K2 as <-.
    destruct (IH _ _ _ _ Q R K1) as (a & A1 & A2 & A3 & A4). exists a. cbn [goal_of]. destruct (goal_of q) as [b c]. cbn [fst snd] in *.
    split; auto. split; auto. split; auto. rewrite A3. f_equal. destruct b, negated; reflexivity.
  - apply bindR in H. destruct H as (y & K1 & K2). unfold init_rw in K2. rewrite andb_false_r in K2. injection K2 as <-.
    apply bindR in K1. destruct K1 as (a & K1 & K3). pose proof (push_card _ _ _ _ _ _ _ Q K1) as CA. destruct (push_same _ _ _ _ _ _ Q R K1) as [RA SA].
    exists a. cbn [goal_of fst snd]. split; auto. split; auto. split; [|exact SA].
    assert (ND : is_ndead a = false) by (destruct a; auto; destruct a; auto; discriminate CA). rewrite ND, (card_not_temporal a CA) in K3. cbn [negb] in K3.
    injection K3 as <-. destruct negated; reflexivity.
  - destruct (IH n (negb negated) (CEF (CNot c)) r Q R H) as (a & A1 & A2 & A3 & A4). exists a. cbn [goal_of fst snd] in *.
    split; auto. split; auto. split; auto. rewrite A3. f_equal. destruct negated; reflexivity.
Qed.

(** What the check finds out about the net. *)
Definition EFm (net : cnet) (a : cond) : Prop := exists m, reachable (to_pnet net) (cn_init net) m /\ in_marking m a.

Lemma decide_true_not : forall net a i, wf_pnet (to_pnet net) -> card a = true -> constant_right net (decide_initially net (CNot (CEF a))) i -> is_true i = true ->
  ~ EFm net a.
Proof.
  intros net a i W C R T. assert (Si : i = CBool true) by (destruct i; try discriminate T; cbn in T; congruence).
  assert (S : sat (to_pnet net) (cn_init net) (decide_initially net (CNot (CEF a)))) by (apply (R true Si); reflexivity).
  unfold decide_initially in S. cbn [evaluate] in S. unfold only_true in S. destruct (evaluate (net_deadb net) (m0 net) a) eqn:E.
  - exfalso. destruct (runs_exist _ (cn_init net) W) as (pi & M & P). exact (Bool.diff_false_true (S pi M P)).
  - apply (sat_not_EF_card _ _ _ W C) in S. exact S.
  - apply (sat_not_EF_card _ _ _ W C) in S. exact S.
Qed.

Lemma decide_false_EF : forall net a i, wf_pnet (to_pnet net) -> card a = true -> constant_right net (decide_initially net (CEF a)) i ->
  is_false i = true -> ~ EFm net a.
Proof.
  intros net a i W C R T. assert (Si : i = CBool false).
  { destruct i; try discriminate T. cbn in T. destruct b; [discriminate T|reflexivity]. }
  apply R in Si.
  assert (S : ~ sat (to_pnet net) (cn_init net) (decide_initially net (CEF a))) by (intros K; apply Si in K; discriminate K).
  unfold decide_initially in S. cbn [evaluate] in S. unfold only_true in S. destruct (evaluate (net_deadb net) (m0 net) a) eqn:E.
  - exfalso. apply S. intros pi M P. reflexivity.
  - intros K. apply S. apply sat_EF_card; auto.
  - intros K. apply S. apply sat_EF_card; auto.
Qed.

(** Both queries the simplification is given get right constants. *)
Definition simp_right (net : cnet) (fuel : nat) (simp : cond -> cond -> cond * cond) (q : cond) : Prop :=
  forall q0 q1 e, prepared net fuel q = Ok (q0, q1, e) -> constant_right net q0 (fst (simp q0 q1)) /\ constant_right net q1 (snd (simp q0 q1)).

Lemma check_sound : forall net fuel simp q v, wf_pnet (to_pnet net) -> simp_right net fuel simp q ->
  reach_query q = true -> in_range q = true -> check_cardinality net fuel simp q = Ok v ->
  exists a, (forall m, in_marking m a <-> in_marking m (snd (goal_of q))) /\
  match v with
  | Satisfied => if fst (goal_of q) then ~ EFm net a else in_marking (cn_init net) a
  | Unsatisfied => if fst (goal_of q) then in_marking (cn_init net) a else ~ EFm net a
  | Unknown => True
  end.
Proof.
  intros net fuel simp q v W R Q I H. unfold check_cardinality in H.
  destruct (prepared net fuel q) as [[[p0 p1] e]| | |] eqn:E; try discriminate H. cbn [bind] in H.
  destruct (R _ _ _ E) as [R0 R1]. clear R. unfold prepared, pushed in E.
  apply bindR in E. destruct E as (q0 & H0 & E). destruct (push_shape _ _ _ _ _ _ _ Q I H0) as (a & CA & IA & -> & EA).
  exists a. split; [exact EA|]. rewrite Bool.xorb_false_r in E. destruct (fst (goal_of q)); cbn [notif] in E.
  - apply bindR in E. destruct E as (q1 & H1 & E). destruct (push_shape _ _ _ _ _ (CAG a) _ CA IA H1) as (b & CB & IB & -> & EB). cbn [goal_of fst snd xorb notif] in *.
    injection E as <- <- <-. destruct (simp (decide_initially net (CNot (CEF a))) (decide_initially net (CNot (CEF b)))) as [s0 s1] eqn:Es. cbn [negb fst snd] in *. rewrite !andb_true_r, !andb_false_r in H.
    destruct (is_true s0) eqn:T0.
    + injection H as <-. eapply (decide_true_not net a s0); eauto.
    + destruct (is_true s1) eqn:T1; injection H as <-; auto.
      assert (N : ~ EFm net b) by (eapply (decide_true_not net b s1); eauto).
      apply NNPP. intros K. apply N. exists (cn_init net). split; [exists []; constructor|]. apply EB. exact K.
  - apply bindR in E. destruct E as (q1 & H1 & E). destruct (push_shape _ _ _ _ _ (CAG a) _ CA IA H1) as (b & CB & IB & -> & EB). cbn [goal_of fst snd xorb notif] in *.
    injection E as <- <- <-. destruct (simp (decide_initially net (CEF a)) (decide_initially net (CNot (CEF b)))) as [s0 s1] eqn:Es. cbn [negb fst snd] in *. rewrite !andb_true_r, !andb_false_r in H.
    destruct (is_false s0) eqn:T0.
    + injection H as <-. eapply (decide_false_EF net a s0); eauto.
    + destruct (is_true s1) eqn:T1; injection H as <-; auto.
      assert (N : ~ EFm net b) by (eapply (decide_true_not net b s1); eauto).
      apply NNPP. intros K. apply N. exists (cn_init net). split; [exists []; constructor|]. apply EB. exact K.
Qed.

(** ** Numbers of places *)
Lemma tokens_map_seq : forall (f : nat -> N) k p, p < k -> tokens (map f (seq 0 k)) p = f p.
Proof.
  intros f k p H. unfold tokens. rewrite nth_indep with (d' := f 0) by (rewrite map_length, seq_length; lia).
  rewrite map_nth. rewrite seq_nth by lia. reflexivity.
Qed.

Section Ren.
Variable f : nat -> nat.
Variable k : nat.

Lemma flat_sub : forall A (g : A -> list nat) l x, In x l -> Forall (fun p => p < k) (flat_map g l) -> Forall (fun p => p < k) (g x).
Proof. intros A g l x I H. rewrite Forall_forall in *. intros y Y. apply H. apply in_flat_map. eauto. Qed.

Section Vals.
Variables m m' : marking.
Hypothesis E : forall p, p < k -> tokens m (f p) = tokens m' p.

Lemma rename_expr_val : forall e, Forall (fun p => p < k) (expr_places e) -> den m (rename_expr f e) = den m' e.
Proof.
  induction e using expr_ind'; cbn [expr_places rename_expr den]; intros P; auto.
  - rewrite E; auto. inversion P; auto.
  - rewrite IHe; auto.
  - apply Forall_app in P. destruct P as [P1 P2]. rewrite (IHe P1). f_equal. f_equal. rewrite map_map. apply map_ext_in. intros x I. rewrite Forall_forall in H. apply H; auto. eapply flat_sub; eauto.
  - apply Forall_app in P. destruct P as [P1 P2]. f_equal; [f_equal|]; f_equal; rewrite map_map; apply map_ext_in; intros x I.
    + rewrite E; auto. rewrite Forall_forall in P1. auto.
    + rewrite Forall_forall in H. apply H; auto. eapply flat_sub; eauto.
  - apply Forall_app in P. destruct P as [P1 P2]. f_equal; [f_equal|]; f_equal; rewrite map_map; apply map_ext_in; intros x I.
    + rewrite E; auto. rewrite Forall_forall in P1. auto.
    + rewrite Forall_forall in H. apply H; auto. eapply flat_sub; eauto.
Qed.

Lemma rename_cons : forall cs, Forall (fun p => p < k) (map c_place cs) ->
  (Forall (cons_holds m) (map (fun x => mkCons (f (c_place x)) (c_lower x) (c_upper x)) cs) <-> Forall (cons_holds m') cs).
Proof.
  induction cs as [|x cs IH]; cbn [map]; intros P; [split; constructor|]. inversion P; subst. rewrite !Forall_cons_iff, IH by auto.
  unfold cons_holds at 1 3. cbn [c_place c_lower c_upper]. rewrite E by auto. tauto.
Qed.

Lemma rename_holds : forall c, card c = true -> Forall (fun p => p < k) (places c) -> (in_marking m (rename f c) <-> in_marking m' c).
Proof.
  unfold in_marking. induction c using cond_ind'; cbn [card places rename]; intros C P; try discriminate C; try tauto.
  - cbn [PqlSpec.holds]. rewrite (IHc C P). tauto.
  - cbn [PqlSpec.holds]. rewrite map_map. rewrite forallb_forall in C. rewrite Forall_forall in H. apply fold_and_ext. intros x I. apply H; auto. eapply flat_sub; eauto.
  - cbn [PqlSpec.holds]. rewrite map_map. rewrite forallb_forall in C. rewrite Forall_forall in H. apply fold_or_ext. intros x I. apply H; auto. eapply flat_sub; eauto.
  - apply Forall_app in P. destruct P as [P1 P2]. cbn [PqlSpec.holds]. rewrite !rename_expr_val by auto. tauto.
  - cbn [PqlSpec.holds]. destruct n; rewrite rename_cons by auto; tauto.
Qed.
End Vals.

Hypothesis inj : forall p q, p < k -> q < k -> f p = f q -> p = q.

Lemma rename_constant : forall e, constant (rename_expr f e) = constant e.
Proof.
  induction e using expr_ind'; cbn [rename_expr constant]; auto.
  - rewrite IHe. f_equal. induction H as [|x l Hx Hl IH]; auto. cbn. rewrite Hx, IH. reflexivity.
  - destruct ids; cbn [map]; auto. induction H as [|x l Hx Hl IH]; auto. cbn. rewrite Hx, IH. reflexivity.
  - destruct ids; cbn [map]; auto. induction H as [|x l Hx Hl IH]; auto. cbn. rewrite Hx, IH. reflexivity.
Qed.
Lemma tokens_nil : forall p, tokens [] p = 0%N.
Proof. intros p. unfold tokens. destruct p; reflexivity. Qed.

Lemma rename_mem : forall p j, p < k -> Forall (fun p => p < k) j -> existsb (Nat.eqb (f p)) (map f j) = existsb (Nat.eqb p) j.
Proof.
  intros p j P. induction 1 as [|x j Hx Hj IH]; auto. cbn [map existsb]. rewrite IH. f_equal.
  destruct (Nat.eqb_spec p x) as [->|D]; [apply Nat.eqb_refl|]. apply Nat.eqb_neq. intros K. apply D. apply inj; auto.
Qed.

Lemma rename_cmp : forall o a b, Forall (fun p => p < k) (expr_places a) -> Forall (fun p => p < k) (expr_places b) ->
  cmp_range o (rename_expr f a) (rename_expr f b) = cmp_range o a b.
Proof.
  intros o a b A B.
  assert (D : forall e, Forall (fun p => p < k) (expr_places e) -> den [] (rename_expr f e) = den [] e).
  { intros e. apply rename_expr_val. intros p _. rewrite !tokens_nil. reflexivity. }
  pose proof (rename_constant a) as Ca. pose proof (rename_constant b) as Cb. apply D in A as Da. apply D in B as Db. clear D.
  unfold cmp_range. destruct a; cbn [rename_expr]; try (destruct b; cbn [rename_expr]; cbn [rename_expr] in Ca, Da; rewrite ?Ca, ?Da; reflexivity).
  - rewrite Cb, Db. reflexivity.
  - destruct b; cbn [rename_expr]; try (cbn [rename_expr] in Ca, Da; rewrite ?Ca, ?Da; reflexivity).
    cbn [expr_places] in A, B. apply Forall_app in A, B. destruct A as [A _]. destruct B as [B _]. clear - A B inj.
    induction A as [|x l Hx Hl IH]; auto. cbn [map forallb]. rewrite IH, rename_mem; auto.
Qed.

Lemma rename_range : forall c, (card c = true \/ reach_query c = true) -> Forall (fun p => p < k) (places c) -> in_range (rename f c) = in_range c.
Proof.
  assert (X : forall c, card c = true -> Forall (fun p => p < k) (places c) -> in_range (rename f c) = in_range c).
  { induction c using cond_ind'; cbn [card places rename in_range]; intros C P; try discriminate C; auto.
    - rewrite forallb_forall in C. rewrite Forall_forall in H. assert (Y : forall x, In x l -> in_range (rename f x) = in_range x) by (intros x I; apply H; auto; eapply flat_sub; eauto).
      clear - Y. induction l as [|x l IH]; auto. cbn [map forallb]. rewrite IH by (intros; apply Y; right; auto). rewrite Y by (left; auto). reflexivity.
    - rewrite forallb_forall in C. rewrite Forall_forall in H. assert (Y : forall x, In x l -> in_range (rename f x) = in_range x) by (intros x I; apply H; auto; eapply flat_sub; eauto).
      clear - Y. induction l as [|x l IH]; auto. cbn [map forallb]. rewrite IH by (intros; apply Y; right; auto). rewrite Y by (left; auto). reflexivity.
    - apply Forall_app in P. destruct P. apply rename_cmp; auto.
    - clear. induction cs as [|x l IH]; auto. cbn [map forallb]. rewrite IH. reflexivity. }
  induction c using cond_ind'; intros [C|C] P; auto; cbn [reach_query] in C; try discriminate C; cbn [rename in_range places] in *; auto.
Qed.
End Ren.

Lemma rename_card : forall f c, card (rename f c) = card c.
Proof.
  intros f. induction c using cond_ind'; cbn [card rename]; auto.
  - induction H as [|x l Hx Hl IH]; auto. cbn [map forallb]. rewrite Hx, IH. reflexivity.
  - induction H as [|x l Hx Hl IH]; auto. cbn [map forallb]. rewrite Hx, IH. reflexivity.
Qed.
Lemma rename_reach : forall f q, reach_query (rename f q) = reach_query q.
Proof.
  intros f. induction q using cond_ind'; cbn [reach_query rename]; auto using rename_card.
Qed.
Lemma goal_rename : forall f q, reach_query q = true -> goal_of (rename f q) = (fst (goal_of q), rename f (snd (goal_of q))).
Proof.
  intros f. induction q using cond_ind'; cbn [reach_query rename goal_of]; intros R; try discriminate R; auto.
  rewrite IHq by auto. destruct (goal_of q) as [b c]. reflexivity.
Qed.
Lemma goal_card : forall q, reach_query q = true -> card (snd (goal_of q)) = true /\ places (snd (goal_of q)) = places q.
Proof.
  induction q using cond_ind'; cbn [reach_query goal_of]; intros R; try discriminate R; auto.
  destruct (IHq R) as [A B]. cbn [places]. destruct (goal_of q) as [b c]. auto.
Qed.
Lemma means_goal : forall n q, reach_query q = true ->
  (means n q <-> (if fst (goal_of q) then ~ exists M, creach n M /\ in_marking (totals n M) (snd (goal_of q)) else exists M, creach n M /\ in_marking (totals n M) (snd (goal_of q)))).
Proof.
  intros n. induction q using cond_ind'; cbn [reach_query goal_of means]; intros R; try discriminate R.
  - rewrite (IHq R). destruct (goal_of q) as [b c]. cbn [fst snd]. destruct b; cbn [negb]; [|tauto].
    split; [apply NNPP|tauto].
  - cbn [fst snd]. tauto.
  - cbn [fst snd]. split.
    + intros H (M & C & D). apply D. apply H. exact C.
    + intros H M C. apply NNPP. intros D. apply H. exists M. split; [exact C|exact D].
Qed.

(** ** Runs *)
Lemma follows_run : forall n net pidx, follows n net pidx -> forall M ts M', crun n M ts M' -> forall m, same_tokens n net pidx M m ->
  exists w m', run (to_pnet net) m w m' /\ length w = length ts /\ same_tokens n net pidx M' m'.
Proof.
  intros n net pidx [_ F] M ts M' R. induction R as [M|M t M1 ts M2 S R IH]; intros m T.
  - exists [], m. split; [constructor|]. auto.
  - destruct (F _ _ _ _ T S) as (u & m1 & S1 & T1). destruct (IH m1 T1) as (w & m2 & R2 & L & T2).
    exists (u :: w), m2. split; [econstructor; eauto|]. cbn. auto.
Qed.

Theorem ignorant_runs : forall n tname fuel net, cpn_ok n -> arcs_pos n -> 0 < length (cn_pls n) ->
  (forall a b c d, tname a b = tname c d -> a = c /\ b = d) -> ignorant_net n tname fuel = Ok net ->
  exists pidx, same_places n net pidx /\
  forall ts M, crun n (cinit n) ts M -> exists w m, run (to_pnet net) (cn_init net) w m /\ length w = length ts /\ same_tokens n net pidx M m.
Proof.
  intros n tname fuel net O A L J H. destruct (ignorant_follows n tname fuel net O A L J H) as (_ & pidx & P & F). exists pidx. split; auto.
  intros ts M R. eapply follows_run; eauto. apply F.
Qed.

Lemma cardinality_pidx : forall n net pidx, layout net -> same_places n net pidx -> follows n net pidx ->
  forall f simp q v, simp_right net f simp (rename pidx q) -> reach_query q = true -> in_range q = true -> Forall (fun p => p < length (cn_pls n)) (places q) ->
  check_cardinality net f simp (rename pidx q) = Ok v ->
  (v = Satisfied -> means n q) /\ (v = Unsatisfied -> ~ means n q).
Proof.
  intros n net pidx LY P F.
  intros f simp q v R Q I PL K.
  assert (Q' : reach_query (rename pidx q) = true) by (rewrite rename_reach; auto).
  assert (I' : in_range (rename pidx q) = true) by (rewrite (rename_range pidx (length (cn_pls n))); auto; apply P).
  destruct (check_sound net f simp _ v (ly_wf LY) R Q' I' K) as (a & EA & V). rewrite goal_rename in EA, V by auto. cbn [fst snd] in EA, V.
  destruct (goal_card q Q) as [GC GP]. rewrite (means_goal n q Q).
  assert (TR : forall M m, same_tokens n net pidx M m -> (in_marking m a <-> in_marking (totals n M) (snd (goal_of q)))).
  { intros M m [_ T]. rewrite EA. apply (rename_holds pidx (length (cn_pls n))); auto.
    - intros p Hp. unfold totals. rewrite tokens_map_seq by auto. auto.
    - rewrite GP. auto. }
  assert (NO : ~ EFm net a -> ~ exists M, creach n M /\ in_marking (totals n M) (snd (goal_of q))).
  { intros N (M & (ts & C) & HM). destruct (follows_run _ _ _ F _ _ _ C _ (proj1 F)) as (w & m & R1 & _ & T).
    apply N. exists m. split; [exists w; exact R1|]. apply (TR M m T). exact HM. }
  assert (YES : in_marking (cn_init net) a -> exists M, creach n M /\ in_marking (totals n M) (snd (goal_of q))).
  { intros Y. exists (cinit n). split; [exists []; constructor|]. apply (TR _ _ (proj1 F)). exact Y. }
  destruct v; split; intros D; try discriminate D; destruct (fst (goal_of q)); auto.
Qed.

Theorem cardinality_right : forall n tname fuel net, cpn_ok n -> arcs_pos n -> 0 < length (cn_pls n) ->
  (forall a b c d, tname a b = tname c d -> a = c /\ b = d) -> ignorant_net n tname fuel = Ok net ->
  exists pidx, same_places n net pidx /\
  forall f simp q v, simp_right net f simp (rename pidx q) -> reach_query q = true -> in_range q = true -> Forall (fun p => p < length (cn_pls n)) (places q) ->
  check_cardinality net f simp (rename pidx q) = Ok v ->
  (v = Satisfied -> means n q) /\ (v = Unsatisfied -> ~ means n q).
Proof.
  intros n tname fuel net O A L J H. destruct (ignorant_follows n tname fuel net O A L J H) as (LY & pidx & P & F). exists pidx. split; auto.
  intros f simp q v. eapply cardinality_pidx; eauto.
Qed.
