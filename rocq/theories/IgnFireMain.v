(** The answers of the check of queries about fireable transitions are right (C44). *)
From Verif Require Import Base BaseLemmas NetSpec NetModel NetProofs ColSyntax ColSpec ExpSpec PqlSyntax PqlSpec PqlModel PqlProofs PqlPush
  QueryModel QueryProofs CtlFrag SearchModel IgnModel IgnSpec IgnCheck IgnMain IgnVerdict IgnSimp IgnFireModel IgnFireSpec IgnFireTv IgnFireSearch.
From Coq Require Import Classical.

Section Ind.
Variable P : fform -> Prop.
Hypothesis H1 : forall b, P (FBool b).
Hypothesis H2 : forall t, P (FFire t).
Hypothesis H3 : forall f, P f -> P (FNot f).
Hypothesis H4 : forall l, Forall P l -> P (FAnd l).
Hypothesis H5 : forall l, Forall P l -> P (FOr l).
Fixpoint fform_ind' (f : fform) : P f :=
  let fix go (l : list fform) : Forall P l := match l with [] => Forall_nil P | x :: l => Forall_cons x (fform_ind' x) (go l) end in
  match f with
  | FBool b => H1 b
  | FFire t => H2 t
  | FNot f => H3 f (fform_ind' f)
  | FAnd l => H4 l (go l)
  | FOr l => H5 l (go l)
  end.
End Ind.

Lemma nth_error_map_seq : forall A (f : nat -> A) k m t x, nth_error (map f (seq k m)) t = Some x -> x = f (k + t).
Proof.
  intros A f k m. revert k. induction m as [|m IH]; intros k t x H; [destruct t; discriminate H|]. destruct t as [|t]; cbn in H.
  - injection H as <-. f_equal. lia.
  - apply IH in H. rewrite H. f_equal. lia.
Qed.

Section Sound.
Variable n : cpn.
Variable net : cnet.
Variables pidx tidx : nat -> nat.
Hypothesis LY : layout net.
Hypothesis LS : least n net pidx tidx.

Fixpoint fcompile_all (l : list fform) : res (list cond) :=
  match l with
  | [] => Ok []
  | x :: l' => c <- fcompile net tidx x ;; r <- fcompile_all l' ;; Ok (c :: r)
  end.
Lemma fcompile_and : forall l, fcompile net tidx (FAnd l) = (cs <- fcompile_all l ;; Ok (CAnd cs)).
Proof. reflexivity. Qed.
Lemma fcompile_or : forall l, fcompile net tidx (FOr l) = (cs <- fcompile_all l ;; Ok (COr cs)).
Proof. reflexivity. Qed.

Definition ok_trans (t : nat) : Prop := t < length (cn_trs n) /\ takes net (tidx t).

(** The two values of a compiled formula bound its truth. *)
Definition bounds (f : fform) (c : cond) : Prop := ffrag c = true /\ forall M m, same_tokens n net pidx M m ->
  (tvl m true c = true -> fholds n M f) /\ (fholds n M f -> tvl m false c = true).

Lemma fire_bounds : forall t c, ok_trans t -> fireable net (tidx t) = Ok c -> in_range c = true -> bounds (FFire t) c.
Proof.
  intros t c [Lt (ar & A1 & A2 & A3)] H R. unfold fireable, preset, rd in H.
  destruct (nth_error (cn_transitions net) (tidx t)) as [a|] eqn:E; [|discriminate H]. cbn [bind] in H.
  unfold net_trans in A1. cbn [tr_pre] in A1. rewrite (nth_error_nth _ _ _ E) in A1.
  assert (HP : forall low low', step (to_pnet net) low (tidx t) low' -> forall iv, In iv (slice (cn_invs net) (fst a) (snd a)) -> iv_inhib iv = false -> (iv_tokens iv <= tokens low (iv_place iv))%N).
  { intros low low' (tr & Et & EN & _) iv I Ni. cbn [to_pnet pn_trans] in Et. apply nth_error_map_seq in Et. subst tr.
    assert (J : In (inv_arc iv) (tr_pre (net_trans net (tidx t)))).
    { unfold net_trans. cbn [tr_pre]. rewrite (nth_error_nth _ _ _ E). apply in_map. exact I. }
    specialize (EN _ J). unfold arc_ok in EN. destruct iv as [p w ih d]. cbn in *. subst ih. exact EN. }
  set (pre := slice (cn_invs net) (fst a) (snd a)) in *. apply in_map_iff in A1. destruct A1 as (iv & <- & Ii).
  assert (Hc : c = CConj false (map fire_cons pre)) by (destruct pre; [destruct Ii|injection H as <-; reflexivity]). clear H. subst c.
  split; [exact R|]. intros M m T. split.
  - intros V. exfalso. cbn [tvl] in V. rewrite forallb_forall in V. specialize (V (fire_cons iv) (in_map _ _ _ Ii)).
    unfold cok, fire_cons in V. destruct iv as [p w ih d]. cbn in A2, A3, V. subst ih. cbn [negb c_lower c_upper] in V.
    apply andb_prop in V. destruct V as [V _]. apply N.eqb_eq in V. rewrite V in A3. inversion A3.
  - intros (M' & S). destruct (LS _ _ _ _ T S) as (low & low' & ST & LE). specialize (HP _ _ ST).
    cbn [tvl]. apply forallb_forall. intros x0 Ix0. apply in_map_iff in Ix0. destruct Ix0 as (x & <- & Ix). unfold cok, fire_cons. destruct (iv_inhib x) eqn:Ex; cbn [negb].
    + destruct (0 <? iv_tokens x)%N; cbn [c_lower]; apply N.leb_le, N.le_0_l.
    + cbn [c_lower c_place]. apply N.leb_le. etransitivity; [apply HP; auto|]. apply LE.
Qed.

Lemma all_bounds : forall l, Forall (fun f => forall c, Forall ok_trans (ftrans f) -> fcompile net tidx f = Ok c -> in_range c = true -> bounds f c) l ->
  forall cs, Forall ok_trans (flat_map ftrans l) -> fcompile_all l = Ok cs -> forallb in_range cs = true -> Forall2 bounds l cs.
Proof.
  induction 1 as [|x l Hx Hl IH]; intros cs O H R; cbn [fcompile_all] in H; [injection H as <-; constructor|].
  cbn [flat_map] in O. apply Forall_app in O. destruct O as [O1 O2].
  apply bindR in H. destruct H as (c & H1 & H). apply bindR in H. destruct H as (r & H2 & H). injection H as <-.
  cbn [forallb] in R. apply andb_prop in R. destruct R as [R1 R2]. constructor; auto.
Qed.

Lemma fcompile_bounds : forall f c, Forall ok_trans (ftrans f) -> fcompile net tidx f = Ok c -> in_range c = true -> bounds f c.
Proof.
  induction f using fform_ind'; intros c O C R.
  - injection C as <-. split; [reflexivity|]. intros M m T. cbn. auto.
  - inversion O; subst. apply fire_bounds; auto.
  - cbn [fcompile] in C. apply bindR in C. destruct C as (d & C & K). injection K as <-. destruct (IHf d O C R) as [F B].
    split; [exact F|]. intros M m T. destruct (B M m T) as [B1 B2]. cbn [tvl fholds]. rewrite !Bool.negb_true_iff. cbn [negb]. split.
    + intros V K. apply B2 in K. congruence.
    + intros K. destruct (tvl m true d) eqn:V; auto. exfalso. auto.
  - rewrite fcompile_and in C. apply bindR in C. destruct C as (cs & C & K). injection K as <-. pose proof (all_bounds l H cs O C R) as F2. clear - F2.
    split; [cbn [ffrag]; induction F2 as [|x y l r [Q _] F2 IH]; auto; cbn [forallb]; rewrite Q, IH; reflexivity|].
    intros M m T. cbn [tvl fholds]. induction F2 as [|x y l r [_ Q] F2 IH]; [cbn; auto|]. cbn [forallb map fold_right].
    destruct (Q M m T) as [Q1 Q2]. destruct IH as [I1 I2]. rewrite !andb_true_iff. tauto.
  - rewrite fcompile_or in C. apply bindR in C. destruct C as (cs & C & K). injection K as <-. pose proof (all_bounds l H cs O C R) as F2. clear - F2.
    split; [cbn [ffrag]; induction F2 as [|x y l r [Q _] F2 IH]; auto; cbn [forallb]; rewrite Q, IH; reflexivity|].
    intros M m T. cbn [tvl fholds]. induction F2 as [|x y l r [_ Q] F2 IH]; [cbn; split; [discriminate|tauto]|]. cbn [existsb map fold_right].
    destruct (Q M m T) as [Q1 Q2]. destruct IH as [I1 I2]. rewrite !orb_true_iff. tauto.
Qed.

(** The formula whose reachability decides the query. *)
Fixpoint fgoal (q : fquery) : bool * fform :=
  match q with
  | QEF f => (false, f)
  | QAG f => (true, FNot f)
  | QNot q => let '(b, f) := fgoal q in (negb b, f)
  end.
Lemma fgoal_trans : forall q, ftrans (snd (fgoal q)) = qtrans q.
Proof. induction q; cbn [fgoal qtrans]; auto. destruct (fgoal q). exact IHq. Qed.
Lemma fmeans_goal : forall q,
  fmeans n q <-> (if fst (fgoal q) then ~ exists M, creach n M /\ fholds n M (snd (fgoal q)) else exists M, creach n M /\ fholds n M (snd (fgoal q))).
Proof.
  induction q; cbn [fgoal fmeans].
  - cbn [fst snd]. tauto.
  - cbn [fst snd fholds]. split.
    + intros H (M & C & D). apply D. apply H. exact C.
    + intros H M C. apply NNPP. intros D. apply H. exists M. split; [exact C|exact D].
  - rewrite IHq. destruct (fgoal q) as [b c]. cbn [fst snd]. destruct b; cbn [negb]; [|tauto].
    split; [apply NNPP|tauto].
Qed.

Lemma qcompile_shape : forall q c, qcompile net tidx q = Ok c ->
  fst (goal_of c) = fst (fgoal q) /\ fcompile net tidx (snd (fgoal q)) = Ok (snd (goal_of c)) /\ in_range (snd (goal_of c)) = in_range c.
Proof.
  induction q as [f|f|q IH]; cbn [qcompile fgoal]; intros c H; apply bindR in H; destruct H as (d & H & K); injection K as <-.
  - cbn [goal_of fst snd in_range]. auto.
  - cbn [goal_of fst snd in_range]. cbn [fcompile]. rewrite H. auto.
  - cbn [goal_of]. destruct (IH d H) as (A & B & C). destruct (goal_of d) as [b e], (fgoal q) as [b' e']. cbn [fst snd in_range] in *. subst. auto.
Qed.

(** A temporal query over a formula of the fragment. *)
Fixpoint tq (q : cond) : bool := match q with CEF c | CAG c => ffrag c | CNot q => tq q | _ => false end.
Lemma goal_tq : forall q f, qcompile net tidx f = Ok q -> ffrag (snd (goal_of q)) = true -> tq q = true.
Proof.
  intros q f. revert q. induction f as [f|f|f IH]; cbn [qcompile]; intros q H; apply bindR in H; destruct H as (d & H & K); injection K as <-; cbn [goal_of snd tq ffrag]; auto.
  specialize (IH d H). destruct (goal_of d). exact IH.
Qed.

Lemma tq_shape : forall deadb m0 f k negated q r, tq q = true -> push deadb m0 false f k negated q = Ok r ->
  exists a, nf a = true /\ r = notif (xorb (fst (goal_of q)) negated) (CEF a) /\ forall m b, tvl m b a = tvl m b (snd (goal_of q)).
Proof.
  intros deadb m0. induction f as [|f IH]; intros k negated q r Q H; [discriminate H|].
  destruct q as [b| |q|l|l|o a b|neg cs|c|c|c|c|c|c|a b|a b|c|c|c|c|c|a b]; cbn [tq] in Q; try discriminate Q; cbn [PqlModel.push] in H.
  - apply bindR in H. destruct H as (y & K1 & K2). unfold init_rw in K2. rewrite andb_false_r in K2. injection K2 as <-.
    destruct (IH _ _ _ _ Q K1) as (a & A1 & A3 & A4). exists a. cbn [goal_of]. destruct (goal_of q) as [b c]. cbn [fst snd] in *.
    split; auto. split; auto. rewrite A3. f_equal. destruct b, negated; reflexivity.
  - apply bindR in H. destruct H as (y & K1 & K2). unfold init_rw in K2. rewrite andb_false_r in K2. injection K2 as <-.
    apply bindR in K1. destruct K1 as (a & K1 & K3). assert (CA : nf a = true) by (apply (push_tv [] _ _ _ _ _ _ _ Q K1)).
    exists a. cbn [goal_of fst snd]. split; auto. split; [|intros m b; apply (push_tv m _ _ _ _ _ _ _ Q K1)].
    assert (ND : is_ndead a = false) by (destruct a; auto; destruct a; auto; discriminate CA). rewrite ND, (nf_temporal a CA) in K3. cbn [negb] in K3.
    injection K3 as <-. destruct negated; reflexivity.
  - destruct (IH k (negb negated) (CEF (CNot c)) r Q H) as (a & A1 & A3 & A4). exists a. cbn [goal_of fst snd] in *.
    split; auto. split; auto. rewrite A3. f_equal. destruct negated; reflexivity.
Qed.

Hypothesis FO : follows n net pidx.
Hypothesis SM : fits32 (cn_init net).

Lemma fire_right : forall f timeout pick steps q c v,
  Forall ok_trans (qtrans q) -> qcompile net tidx q = Ok c -> in_range c = true ->
  check_fireability net f timeout pick steps c = Ok v ->
  (v = IgnCheck.Satisfied -> fmeans n q) /\ (v = Unsatisfied -> ~ fmeans n q).
Proof.
  intros f timeout pick steps q c v O C R H. destruct (qcompile_shape q c C) as (G1 & G2 & G3). rewrite <- G3 in R. rewrite <- fgoal_trans in O.
  destruct (fcompile_bounds _ _ O G2 R) as [FF B]. pose proof (goal_tq c q C FF) as TQ.
  unfold check_fireability, pushed in H. apply bindR in H. destruct H as (q0 & P0 & H).
  destruct (tq_shape _ _ _ _ _ _ _ TQ P0) as (a & NA & -> & EA). rewrite Bool.xorb_false_r, G1 in H.
  set (neg := fst (fgoal q)) in *.
  assert (K : qa <- push (net_deadb net) (m0 net) false f false false (CAG a) ;; qe <- push (net_deadb net) (m0 net) false f false false (CEF a) ;;
    rs <- fire_search net timeout pick steps [qa; qe; notif neg (CEF a)] ;;
    Ok (match rs with
        | r0 :: r1 :: _ =>
          match r0, r1 with
          | SearchModel.Satisfied, _ => if negb neg then IgnCheck.Satisfied else Unsatisfied
          | _, NotSatisfied => if negb neg then Unsatisfied else IgnCheck.Satisfied
          | _, _ => IgnCheck.Unknown
          end
        | _ => IgnCheck.Unknown
        end) = Ok v) by (destruct neg; exact H). clear H.
  apply bindR in K. destruct K as (qa & PA & K). apply bindR in K. destruct K as (qe & PE & K). apply bindR in K. destruct K as (rs & FS & K).
  destruct (tq_shape _ _ _ _ _ (CAG a) _ (nf_ffrag a NA) PA) as (x & NX & -> & EX). destruct (tq_shape _ _ _ _ _ (CEF a) _ (nf_ffrag a NA) PE) as (y & NY & -> & EY).
  cbn [goal_of fst snd xorb notif] in *.
  pose proof (search_final net timeout pick LY (proj1 (proj1 FO)) SM steps _ _ FS) as F. inversion F as [|q1 r0 l1 rs1 F1 F']; subst. inversion F' as [|q2 r1 l2 rs2 F2 F'']; subst. clear F F' F''.
  injection K as <-. rewrite fmeans_goal. fold neg.
  (* the initial marking *)
  assert (YES : r0 = SearchModel.Satisfied -> exists M, creach n M /\ fholds n M (snd (fgoal q))).
  { intros ->. cbn [final] in F1. cbn [fire_eval] in F1.
    assert (T : fire_eval (cn_init net) x = RFalse).
    { destruct F1 as [F1|(F1 & m & F3)].
      - unfold tneg in F1. destruct (fire_eval (cn_init net) x); congruence.
      - exfalso. unfold tneg in F1, F3. destruct (fire_eval_one x NX) as [D|D]; [apply (D (cn_init net))|apply (D m)];
          [destruct (fire_eval (cn_init net) x); congruence|destruct (fire_eval m x); congruence]. }
    apply (fire_eval_tv (cn_init net) x NX) in T. rewrite EX in T. cbn [tvl negb] in T. apply Bool.negb_false_iff in T. rewrite EA in T.
    exists (cinit n). split; [exists []; constructor|]. apply (B _ _ (proj1 FO)). exact T. }
  assert (NO : r1 = NotSatisfied -> ~ exists M, creach n M /\ fholds n M (snd (fgoal q))).
  { intros -> (M & (ts & CR) & HM). destruct (follows_run _ _ _ FO _ _ _ CR _ (proj1 FO)) as (w & m & R1 & _ & T).
    cbn [final] in F2. specialize (F2 m (ex_intro _ w R1)). cbn [fire_eval] in F2. apply (fire_eval_tv m y NY) in F2. rewrite EY, EA in F2.
    apply (B _ _ T) in HM. congruence. }
  clear F1 F2. destruct r0, r1, neg; cbn [negb]; split; intros D; try discriminate D; auto.
Qed.
End Sound.

Theorem fireability_right : forall n tname fuel net, cpn_ok n -> arcs_pos n -> 0 < length (cn_pls n) ->
  (forall t k t' k', tname t k = tname t' k' -> t = t' /\ k = k') -> ignorant_net n tname fuel = Ok net ->
  exists pnum tnum tidx, numbers n tname fuel = Ok (pnum, tnum) /\ (forall t, t < length (cn_trs n) -> tnum t = Some (tidx t)) /\
  forall f timeout pick steps q c v, Forall (fun t => t < length (cn_trs n) /\ takes net (tidx t)) (qtrans q) ->
  qcompile net tidx q = Ok c -> in_range c = true -> check_fireability net f timeout pick steps c = Ok v ->
  (v = IgnCheck.Satisfied -> fmeans n q) /\ (v = Unsatisfied -> ~ fmeans n q).
Proof.
  intros n tname fuel net O A L J H. destruct (ignorant_full n tname fuel net O A L J H) as (LY & pnum & tnum & pidx & tidx & NU & _ & NT & P & F & LS).
  exists pnum, tnum, tidx. split; [exact NU|]. split; [exact NT|]. intros f timeout pick steps q c v T C R K.
  eapply (fire_right n net pidx tidx); eauto. pose proof (init_small n net pidx O P (proj1 F)) as Sm.
  intros p. unfold tokens. destruct (Nat.lt_ge_cases p (length (cn_init net))) as [Lp|Lp]; [|rewrite nth_overflow by exact Lp; reflexivity].
  specialize (Sm _ (nth_In _ 0%N Lp)). eapply N.lt_trans; [exact Sm|reflexivity].
Qed.
