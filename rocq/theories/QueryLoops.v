(** Proofs about hasNestedDeadlock and isLoopSensitive. *)
From Verif Require Import Base BaseLemmas NetSpec NetModel NetProofs PqlSyntax PqlSpec PqlModel PqlProofs PushRules PqlRuns
  QueryModel QuerySpec QueryProofs QueryClass.
From Coq Require Import Classical_Prop Classical_Pred_Type.

(** * Nested deadlocks *)
Fixpoint nested_list (l : list cond) (fl : bool) : bool :=
  match l with
  | [] => false
  | c :: l' => let r := nested_dead c fl in fst r || nested_list l' (snd r)
  end.
Lemma nested_dead_and : forall l fl, nested_dead (CAnd l) fl = (nested_list l true, false).
Proof. reflexivity. Qed.
Lemma nested_dead_or : forall l fl, nested_dead (COr l) fl = (nested_list l true, false).
Proof. reflexivity. Qed.
Lemma nested_deadlock_child : forall c d, In d (children c) -> nested_deadlock d -> nested_deadlock c.
Proof. intros c d Hd (l & H1 & H2 & H3). exists l. split; [exact H1|]. split; [econstructor; eauto|exact H3]. Qed.
Lemma nested_dead_sound : forall c fl, fst (nested_dead c fl) = true -> nested_deadlock c \/ (fl = true /\ occurs CDead c).
Proof.
  assert (C1 : forall c d fl, children c = [d] -> (nested_deadlock d \/ (fl = true /\ occurs CDead d)) ->
     nested_deadlock c \/ (fl = true /\ occurs CDead c)).
  { intros c d fl E [H|(H1 & H2)].
    - left. eapply nested_deadlock_child; [|exact H]. rewrite E. left. reflexivity.
    - right. split; [exact H1|]. econstructor; [|exact H2]. rewrite E. left. reflexivity. }
  assert (Sn : forall c fl, snd (nested_dead c fl) = true -> fl = true).
  { induction c using cond_ind'; intros fl; cbn [nested_dead snd]; auto; discriminate. }
  assert (C2 : forall c a b fl, children c = [a; b] ->
     (forall fl, fst (nested_dead a fl) = true -> nested_deadlock a \/ (fl = true /\ occurs CDead a)) ->
     (forall fl, fst (nested_dead b fl) = true -> nested_deadlock b \/ (fl = true /\ occurs CDead b)) ->
     fst (nested_dead a fl) || fst (nested_dead b (snd (nested_dead a fl))) = true ->
     nested_deadlock c \/ (fl = true /\ occurs CDead c)).
  { intros c a b fl E Ha Hb H. apply orb_true_iff in H. destruct H as [H|H].
    - destruct (Ha _ H) as [H1|(H1 & H2)].
      + left. eapply nested_deadlock_child; [|exact H1]. rewrite E. left. reflexivity.
      + right. split; [exact H1|]. econstructor; [|exact H2]. rewrite E. left. reflexivity.
    - destruct (Hb _ H) as [H1|(H1 & H2)].
      + left. eapply nested_deadlock_child; [|exact H1]. rewrite E. right. left. reflexivity.
      + right. split; [eapply Sn; exact H1|]. econstructor; [|exact H2]. rewrite E. right. left. reflexivity. }
  assert (LL : forall c l, logical c -> children c = l ->
     Forall (fun c => forall fl, fst (nested_dead c fl) = true -> nested_deadlock c \/ (fl = true /\ occurs CDead c)) l ->
     nested_list l true = true -> nested_deadlock c).
  { intros c l Hl E F H.
    assert (X : exists d, In d l /\ (nested_deadlock d \/ occurs CDead d)).
    { clear E Hl. revert H. generalize true at 1. induction F as [|d l Hd F IH]; intros fl; cbn [nested_list]; [discriminate|].
      rewrite orb_true_iff. intros [H|H].
      - exists d. split; [left; reflexivity|]. destruct (Hd _ H) as [|(_ & ?)]; auto.
      - destruct (IH _ H) as (x & Hx & G). exists x. split; [right; exact Hx|exact G]. }
    destruct X as (d & Hd & [Hn|Ho]).
    - eapply nested_deadlock_child; [|exact Hn]. rewrite E. exact Hd.
    - exists c. split; [exact Hl|]. split; [constructor|]. econstructor; [|exact Ho]. rewrite E. exact Hd. }
  induction c using cond_ind'; intros fl; cbn [nested_dead fst snd]; try discriminate.
  - intros ->. right. split; [reflexivity|constructor].
  - intros E. eapply C1; [reflexivity|eauto].
  - intros E. left. eapply (LL (CAnd l) l); [exact I|reflexivity|exact H|exact E].
  - intros E. left. eapply (LL (COr l) l); [exact I|reflexivity|exact H|exact E].
  - intros E. eapply C1; [reflexivity|eauto].
  - intros E. eapply C1; [reflexivity|eauto].
  - intros E. eapply C1; [reflexivity|eauto].
  - intros E. eapply C1; [reflexivity|eauto].
  - intros E. eapply C1; [reflexivity|eauto].
  - intros E. eapply C1; [reflexivity|eauto].
  - intros E. eapply C2; [reflexivity|exact IHc1|exact IHc2|exact E].
  - intros E. eapply C2; [reflexivity|exact IHc1|exact IHc2|exact E].
  - intros E. eapply C1; [reflexivity|eauto].
  - intros E. eapply C1; [reflexivity|eauto].
  - intros E. eapply C1; [reflexivity|eauto].
  - intros E. eapply C1; [reflexivity|eauto].
  - intros E. eapply C1; [reflexivity|eauto].
  - intros E. eapply C2; [reflexivity|exact IHc1|exact IHc2|exact E].
Qed.
Lemma has_nested_sound : forall c, has_nested_deadlock c = true -> nested_deadlock c.
Proof. intros c H. destruct (nested_dead_sound c false H) as [|(E & _)]; [assumption|discriminate]. Qed.

Lemma no_logical_nested : forall c fl, no_logical c = true -> nested_dead c fl = (fl && contains_deadlock c, fl).
Proof.
  induction c using cond_ind'; intros fl; cbn [no_logical nested_dead contains_deadlock]; intros N; auto; try discriminate.
  all: try (rewrite andb_false_r; reflexivity).
  all: try (rewrite andb_true_r; reflexivity).
  all: apply andb_true_iff in N; destruct N as (N1 & N2); rewrite (IHc1 fl N1); cbn [fst snd]; rewrite (IHc2 fl N2); cbn [fst snd];
    destruct fl, (contains_deadlock c1), (contains_deadlock c2); reflexivity.
Qed.
Lemma flat_nested : forall c, flat c = true -> (nested_deadlock c <-> fst (nested_dead c false) = true) /\ snd (nested_dead c false) = false.
Proof.
  assert (Z : forall c, children c = [] -> ~ logical c -> ~ nested_deadlock c).
  { intros c E Hl (l & H1 & H2 & _). apply occurs_cases in H2. rewrite E in H2. destruct H2 as [->|(d & [] & _)]. contradiction. }
  assert (C1 : forall c d, children c = [d] -> ~ logical c -> (nested_deadlock c <-> nested_deadlock d)).
  { intros c d E Hl. split.
    - intros (l & H1 & H2 & H3). apply occurs_cases in H2. rewrite E in H2. destruct H2 as [->|(x & [<-|[]] & H2)]; [contradiction|].
      exists l. auto.
    - intros H. eapply nested_deadlock_child; [|exact H]. rewrite E. left. reflexivity. }
  assert (C2 : forall c a b, children c = [a; b] -> ~ logical c -> (nested_deadlock c <-> nested_deadlock a \/ nested_deadlock b)).
  { intros c a b E Hl. split.
    - intros (l & H1 & H2 & H3). apply occurs_cases in H2. rewrite E in H2.
      destruct H2 as [->|(x & [<-|[<-|[]]] & H2)]; [contradiction|left|right]; exists l; auto.
    - intros [H|H]; (eapply nested_deadlock_child; [|exact H]); rewrite E; [left|right; left]; reflexivity. }
  assert (LL : forall l, forallb no_logical l = true -> nested_list l true = existsb contains_deadlock l).
  { induction l as [|x l IH]; [reflexivity|]. cbn [forallb nested_list existsb]. rewrite andb_true_iff. intros (N1 & N2).
    rewrite (no_logical_nested x true N1). cbn [fst snd andb]. rewrite IH by exact N2. reflexivity. }
  assert (LC : forall c l, logical c -> children c = l -> forallb no_logical l = true ->
     (nested_deadlock c <-> nested_list l true = true)).
  { intros c l Hl E N. rewrite (LL l N), existsb_exists. split.
    - intros (x & H1 & H2 & H3). apply occurs_cases in H2. destruct H2 as [->|(d & Hd & H2)].
      + apply occurs_cases in H3. destruct H3 as [<-|(d & Hd & H3)]; [destruct Hl|]. exists d. rewrite E in Hd. split; [exact Hd|apply deadlock_spec; exact H3].
      + exfalso. rewrite E in Hd. rewrite forallb_forall in N. specialize (N d Hd). revert N H2 H1. clear.
        induction d using cond_ind'; cbn [no_logical]; intros N O; apply occurs_cases in O; cbn [children] in O; try discriminate;
          destruct O as [->|(y & Hy & O)]; try (intros []; fail); cbn [In] in Hy.
        all: try contradiction.
        all: try (destruct Hy as [<-|[]]; auto; fail).
        all: apply andb_true_iff in N; destruct N as (N1 & N2); destruct Hy as [<-|[<-|[]]]; auto.
    - intros (d & Hd & H). exists c. split; [exact Hl|]. split; [constructor|]. econstructor; [rewrite E; exact Hd|apply deadlock_spec; exact H]. }
  induction c using cond_ind'; cbn [flat]; intros N.
  all: try (split; [|reflexivity]; cbn [nested_dead fst]; split; [intros G; exfalso; revert G; apply Z; [reflexivity|intros []]|discriminate]).
  - rewrite (C1 (CNot c) c) by (auto; intros []). exact (IHc N).
  - split; [apply (LC (CAnd l) l); [exact I|reflexivity|exact N]|reflexivity].
  - split; [apply (LC (COr l) l); [exact I|reflexivity|exact N]|reflexivity].
  - rewrite (C1 (CEX c) c) by (auto; intros []). exact (IHc N).
  - rewrite (C1 (CAX c) c) by (auto; intros []). exact (IHc N).
  - rewrite (C1 (CEF c) c) by (auto; intros []). exact (IHc N).
  - rewrite (C1 (CAF c) c) by (auto; intros []). exact (IHc N).
  - rewrite (C1 (CEG c) c) by (auto; intros []). exact (IHc N).
  - rewrite (C1 (CAG c) c) by (auto; intros []). exact (IHc N).
  - rewrite (C2 (CEU c1 c2) c1 c2) by (auto; intros []). apply andb_true_iff in N. destruct N as (N1 & N2).
    destruct (IHc1 N1) as (A & B), (IHc2 N2) as (C & D). cbn [nested_dead]. rewrite B. cbn [fst snd]. rewrite A, C, D, orb_true_iff. split; [reflexivity|reflexivity].
  - rewrite (C2 (CAU c1 c2) c1 c2) by (auto; intros []). apply andb_true_iff in N. destruct N as (N1 & N2).
    destruct (IHc1 N1) as (A & B), (IHc2 N2) as (C & D). cbn [nested_dead]. rewrite B. cbn [fst snd]. rewrite A, C, D, orb_true_iff. split; [reflexivity|reflexivity].
  - rewrite (C1 (CE c) c) by (auto; intros []). exact (IHc N).
  - rewrite (C1 (CA c) c) by (auto; intros []). exact (IHc N).
  - rewrite (C1 (CF c) c) by (auto; intros []). exact (IHc N).
  - rewrite (C1 (CG c) c) by (auto; intros []). exact (IHc N).
  - rewrite (C1 (CX c) c) by (auto; intros []). exact (IHc N).
  - rewrite (C2 (CU c1 c2) c1 c2) by (auto; intros []). apply andb_true_iff in N. destruct N as (N1 & N2).
    destruct (IHc1 N1) as (A & B), (IHc2 N2) as (C & D). cbn [nested_dead]. rewrite B. cbn [fst snd]. rewrite A, C, D, orb_true_iff. split; [reflexivity|reflexivity].
Qed.

(** * Loops *)
(** the operators that remain when isLoopSensitive answers false *)
Fixpoint loopfree (c : cond) : bool :=
  match c with
  | CBool _ | CCmp _ _ _ | CConj _ _ => true
  | CNot c | CA c | CEF c | CAG c => loopfree c
  | CAnd l | COr l => forallb loopfree l
  | CEU a b | CU a b => loopfree a && loopfree b
  | _ => false
  end.
Lemma loop_sens_free : forall c n, fst (loop_sens c n) = false -> loopfree c = true.
Proof.
  assert (LL : forall l, Forall (fun c => forall n, fst (loop_sens c n) = false -> loopfree c = true) l ->
    forall n, fst ((fix go (l : list cond) (n : bool) : bool * bool :=
       match l with
       | [] => (false, n)
       | c :: l' => let r := loop_sens c n in let s := go l' (snd r) in (fst r || fst s, snd s)
       end) l n) = false -> forallb loopfree l = true).
  { intros l F. induction F as [|c l Hc F IH]; intros n; [reflexivity|]. cbn [fst forallb].
    rewrite orb_false_iff. intros (H1 & H2). rewrite (Hc _ H1). cbn [andb]. exact (IH _ H2). }
  induction c using cond_ind'; intros ng; cbn [loop_sens loopfree fst]; intros E; try discriminate; eauto.
  - destruct ng; [discriminate|]. cbn [fst] in E. apply orb_false_iff in E. destruct E as (E1 & E2).
    rewrite (IHc1 _ E1), (IHc2 _ E2). reflexivity.
  - destruct ng; [discriminate|]. cbn [fst] in E. apply orb_false_iff in E. destruct E as (E1 & E2).
    rewrite (IHc1 _ E1), (IHc2 _ E2). reflexivity.
Qed.

(** [squeeze n rho' rho]: the first [n] steps of [rho'] with some repetitions left out are
    the beginning of [rho]. *)
Fixpoint squeeze (n : nat) (rho' rho : path) : Prop :=
  rho' 0 = rho 0 /\
  match n with
  | O => True
  | S n => squeeze n (shift 1 rho') rho \/ squeeze n (shift 1 rho') (shift 1 rho)
  end.
Lemma squeeze_0 : forall n rho' rho, squeeze n rho' rho -> rho' 0 = rho 0.
Proof. intros [|n] rho' rho H; apply H. Qed.
Lemma squeeze_ext : forall n rho' rho sg' sg, (forall i, rho' i = sg' i) -> (forall i, rho i = sg i) -> squeeze n rho' rho -> squeeze n sg' sg.
Proof.
  induction n as [|n IH]; intros rho' rho sg' sg E' E H; destruct H as (H1 & H2).
  - split; [|exact I]. rewrite <- E', <- E. exact H1.
  - split; [rewrite <- E', <- E; exact H1|]. destruct H2 as [H2|H2]; [left|right];
    (eapply IH; [| |exact H2]); intros i; unfold shift; auto.
Qed.
Lemma squeeze_at : forall i n rho' rho, squeeze (i + n) rho' rho ->
  exists j, squeeze n (shift i rho') (shift j rho) /\
    forall j', j' < j -> exists i' n', i' < i /\ n <= n' /\ squeeze n' (shift i' rho') (shift j' rho).
Proof.
  induction i as [|i IH]; intros n rho' rho H.
  - exists 0. split; [eapply squeeze_ext; [| |exact H]; reflexivity|intros j' Hj; lia].
  - cbn [Nat.add squeeze] in H. destruct H as (H0 & [H|H]); destruct (IH n _ _ H) as (j & H1 & H2).
    + exists j. split; [eapply squeeze_ext; [| |exact H1]; intros k; unfold shift; reflexivity|].
      intros j' Hj. destruct (H2 j' Hj) as (i' & n' & Hi & Hn & Hs). exists (S i'), n'. split; [lia|]. split; [exact Hn|].
      eapply squeeze_ext; [| |exact Hs]; intros k; unfold shift; f_equal; lia.
    + exists (S j). split; [eapply squeeze_ext; [| |exact H1]; intros k; unfold shift; f_equal; lia|].
      intros [|j'] Hj.
      * exists 0, (S (i + n)). split; [lia|]. split; [lia|]. cbn [squeeze]. split; [exact H0|]. right.
        eapply squeeze_ext; [| |exact H]; intros k; unfold shift; reflexivity.
      * destruct (H2 j') as (i' & n' & Hi & Hn & Hs); [lia|]. exists (S i'), n'. split; [lia|]. split; [exact Hn|].
        eapply squeeze_ext; [| |exact Hs]; intros k; unfold shift; f_equal; lia.
Qed.
Section Loops.
  Variables net net' : pnet.
  Hypothesis W : wf_pnet net.
  Hypothesis W' : wf_pnet net'.
  Hypothesis HL : adds_loops net net'.

  Lemma dead_or_step : forall m, dead net' m \/ exists m', nstep net' m m'.
  Proof.
    intros m. destruct (runs_exist net' m W') as (pi & M & P). destruct (M 0) as [H|(H & _)]; rewrite P in H; [right; eauto|left; exact H].
  Qed.
  Lemma maximal_more : forall pi, maximal net pi -> maximal net' pi.
  Proof.
    intros pi M i. destruct (M i) as [H|(H & E)]; [left; apply HL; exact H|].
    destruct (dead_or_step (pi i)) as [Hd|(m' & Hs)]; [right; auto|]. left. rewrite E.
    destruct (proj2 HL _ _ Hs) as [(t & tr & Ht & Hf)|E']; [|subst m'; exact Hs].
    exfalso. apply (H t tr Ht). apply Hf.
  Qed.
  Definition cons_path (m : marking) (pi : path) : path := fun n => match n with O => m | S k => pi k end.
  Lemma squeeze_exists : forall n rho', maximal net' rho' -> exists rho, maximal net rho /\ squeeze n rho' rho.
  Proof.
    induction n as [|n IH]; intros rho' M.
    - destruct (runs_exist net (rho' 0) W) as (rho & Mr & P). exists rho. split; [exact Mr|]. split; [auto|exact I].
    - destruct (IH (shift 1 rho') (maximal_shift 1 M)) as (rho & Mr & S). assert (S0 := squeeze_0 _ _ _ S). unfold shift in S0; cbn [Nat.add] in S0.
      assert (C : nstep net (rho' 0) (rho' 1) \/ rho' 1 = rho' 0).
      { destruct (M 0) as [H|(_ & H)]; [|right; exact H]. apply HL. exact H. }
      destruct C as [C|C].
      + exists (cons_path (rho' 0) rho). split.
        * intros [|k]; [left; cbn [cons_path]; rewrite <- S0; exact C|apply Mr].
        * split; [reflexivity|]. right. eapply squeeze_ext; [| |exact S]; intros k; reflexivity.
      + exists rho. split; [exact Mr|]. split; [congruence|]. left. exact S.
  Qed.

  (** linear-time formulas do not refer to the net *)
  Lemma ltl_net : forall c pi, ltl c = true -> loopfree c = true -> (holds net pi c <-> holds net' pi c).
  Proof.
    induction c using cond_ind'; intros pi; cbn [ltl loopfree]; intros Hl Hf; try discriminate.
    - cbn [holds]. tauto.
    - cbn [holds]. rewrite IHc by auto. tauto.
    - rewrite !holds_and. rewrite forallb_forall in Hl, Hf. rewrite Forall_forall in H.
      split; intros G c Hc; [apply H; auto|apply <- H; auto].
    - rewrite !holds_or. rewrite forallb_forall in Hl, Hf. rewrite Forall_forall in H.
      split; intros (c & Hc & G); exists c; (split; [exact Hc|]); [apply H; auto|apply <- H; auto].
    - cbn [holds]. tauto.
    - cbn [holds]. tauto.
    - apply andb_true_iff in Hl, Hf. destruct Hl, Hf. cbn [holds]. split; intros (i & Hi & Hj); exists i; (split; [|intros j Lj; specialize (Hj j Lj)]);
        [apply IHc2|apply IHc1|apply <- IHc2|apply <- IHc1]; auto.
  Qed.
  (** untils looked at positively are decided by a beginning of the run *)
  Lemma squeeze_ltl : forall c pos, ltl c = true -> loopfree c = true -> until_at pos c = true ->
    forall rho', (if pos then holds net rho' c else ~ holds net rho' c) ->
    exists n, forall k rho, n <= k -> squeeze k rho' rho -> if pos then holds net rho c else ~ holds net rho c.
  Proof.
    induction c using cond_ind'; intros pos; cbn [ltl loopfree until_at]; intros Hl Hf Hu rho' Hr; try discriminate.
    - exists 0. intros k rho _ _. exact Hr.
    - destruct (IHc (negb pos) Hl Hf Hu rho') as (n & Hn).
      { destruct pos; cbn [holds negb] in *; [exact Hr|]. apply NNPP. exact Hr. }
      exists n. intros k rho Hk S. specialize (Hn k rho Hk S). destruct pos; cbn [holds negb] in *; [exact Hn|]. intros G. exact (G Hn).
    - rewrite forallb_forall in Hl, Hf, Hu. rewrite Forall_forall in H. destruct pos.
      + rewrite holds_and in Hr.
        assert (X : forall l', incl l' l -> exists n, forall k rho, n <= k -> squeeze k rho' rho -> forall c, In c l' -> holds net rho c).
        { induction l' as [|c l' IH]; intros Hi; [exists 0; intros k rho _ _ c []|].
          destruct IH as (n1 & H1); [intros x Hx; apply Hi; right; exact Hx|].
          assert (Hc : In c l) by (apply Hi; left; reflexivity).
          destruct (H c Hc true (Hl c Hc) (Hf c Hc) (Hu c Hc) rho' (Hr c Hc)) as (n2 & H2).
          exists (Nat.max n1 n2). intros k rho Hk S x [<-|Hx]; [apply (H2 k); [lia|exact S]|apply (H1 k rho); [lia|exact S|exact Hx]]. }
        destruct (X l (incl_refl l)) as (n & Hn). exists n. intros k rho Hk S. apply holds_and. exact (Hn k rho Hk S).
      + rewrite holds_and in Hr. apply not_all_ex_not in Hr. destruct Hr as (c & Hr). apply imply_to_and in Hr. destruct Hr as (Hc & Hr).
        destruct (H c Hc false (Hl c Hc) (Hf c Hc) (Hu c Hc) rho' Hr) as (n & Hn). exists n. intros k rho Hk S G. rewrite holds_and in G.
        exact (Hn k rho Hk S (G c Hc)).
    - rewrite forallb_forall in Hl, Hf, Hu. rewrite Forall_forall in H. destruct pos.
      + rewrite holds_or in Hr. destruct Hr as (c & Hc & Hr).
        destruct (H c Hc true (Hl c Hc) (Hf c Hc) (Hu c Hc) rho' Hr) as (n & Hn). exists n. intros k rho Hk S. apply holds_or.
        exists c. split; [exact Hc|]. exact (Hn k rho Hk S).
      + rewrite holds_or in Hr.
        assert (X : forall l', incl l' l -> exists n, forall k rho, n <= k -> squeeze k rho' rho -> forall c, In c l' -> ~ holds net rho c).
        { induction l' as [|c l' IH]; intros Hi; [exists 0; intros k rho _ _ c []|].
          destruct IH as (n1 & H1); [intros x Hx; apply Hi; right; exact Hx|].
          assert (Hc : In c l) by (apply Hi; left; reflexivity).
          assert (Hrc : ~ holds net rho' c) by (intros G; apply Hr; exists c; auto).
          destruct (H c Hc false (Hl c Hc) (Hf c Hc) (Hu c Hc) rho' Hrc) as (n2 & H2).
          exists (Nat.max n1 n2). intros k rho Hk S x [<-|Hx]; [apply (H2 k); [lia|exact S]|apply (H1 k rho); [lia|exact S|exact Hx]]. }
        destruct (X l (incl_refl l)) as (n & Hn). exists n. intros k rho Hk S G. apply holds_or in G. destruct G as (c & Hc & G).
        exact (Hn k rho Hk S c Hc G).
    - exists 0. intros k rho _ S. apply squeeze_0 in S. cbn [holds] in *. rewrite <- S. exact Hr.
    - exists 0. intros k rho _ S. apply squeeze_0 in S. cbn [holds] in *. rewrite <- S. exact Hr.
    - destruct pos; [|discriminate]. apply andb_true_iff in Hl, Hf. cbn [andb] in Hu. apply andb_true_iff in Hu.
      destruct Hl as (Hl1 & Hl2), Hf as (Hf1 & Hf2), Hu as (Hu1 & Hu2).
      cbn [holds] in Hr. destruct Hr as (i & Hi & Hj).
      destruct (IHc2 true Hl2 Hf2 Hu2 _ Hi) as (nb & Hb).
      assert (X : forall i', i' <= i -> exists n, forall i'' k rho, i'' < i' -> n <= k -> squeeze k (shift i'' rho') rho -> holds net rho c1).
      { induction i' as [|i' IH]; intros Hle; [exists 0; intros; lia|].
        destruct IH as (n1 & H1); [lia|]. destruct (IHc1 true Hl1 Hf1 Hu1 _ (Hj i' ltac:(lia))) as (n2 & H2).
        exists (Nat.max n1 n2). intros i'' k rho Hlt Hk S. destruct (Nat.eq_dec i'' i') as [->|Hne].
        - apply (H2 k); [lia|exact S].
        - apply (H1 i'' k); [lia|lia|exact S]. }
      destruct (X i (le_n i)) as (na & Ha).
      exists (i + Nat.max na nb). intros k rho Hk S. replace k with (i + (k - i)) in S by lia.
      destruct (squeeze_at i (k - i) rho' rho S) as (j & S1 & S2). cbn [holds]. exists j. split.
      + apply (Hb (k - i)); [lia|exact S1].
      + intros j' Hj'. destruct (S2 j' Hj') as (i' & n' & Hi' & Hn' & S3). apply (Ha i' n'); [exact Hi'|lia|exact S3].
  Qed.

  Lemma loop_insensitive : forall c, stf c = true -> loopfree c = true -> untils_negative c = true ->
    forall pi pi', maximal net pi -> maximal net' pi' -> pi 0 = pi' 0 -> (holds net pi c <-> holds net' pi' c).
  Proof.
    induction c using cond_ind'; cbn [stf loopfree untils_negative]; intros Hs Hf Hu pi pi' M M' E; try discriminate.
    - cbn [holds]. tauto.
    - cbn [holds]. rewrite (IHc Hs Hf Hu pi pi'); tauto.
    - rewrite !holds_and. rewrite forallb_forall in Hs, Hf, Hu. rewrite Forall_forall in H.
      split; intros G c Hc; [eapply H; eauto|eapply (H c Hc _ _ _ pi pi'); eauto]. Unshelve. all: auto.
    - rewrite !holds_or. rewrite forallb_forall in Hs, Hf, Hu. rewrite Forall_forall in H.
      split; intros (c & Hc & G); exists c; (split; [exact Hc|]); [eapply H; eauto|eapply (H c Hc _ _ _ pi pi'); eauto]. Unshelve. all: auto.
    - cbn [holds]. rewrite E. tauto.
    - cbn [holds]. destruct n; rewrite E; tauto.
    - cbn [holds]. split.
      + intros (rho & (Mr & Pr) & i & Hi). exists rho. split; [split; [apply maximal_more; exact Mr|congruence]|]. exists i.
        apply (IHc Hs Hf Hu (shift i rho) (shift i rho)); auto using maximal_shift, maximal_more.
      + intros (rho' & (Mr & Pr) & i & Hi). destruct (squeeze_exists i rho' Mr) as (rho & Mr2 & S).
        assert (S0 := squeeze_0 _ _ _ S). replace i with (i + 0) in S by lia. destruct (squeeze_at i 0 rho' rho S) as (j & S1 & _).
        exists rho. split; [split; [exact Mr2|congruence]|]. exists j. apply squeeze_0 in S1.
        apply (IHc Hs Hf Hu (shift j rho) (shift i rho')); auto using maximal_shift.
    - cbn [holds]. split.
      + intros G rho' (Mr & Pr) i. destruct (squeeze_exists i rho' Mr) as (rho & Mr2 & S).
        assert (S0 := squeeze_0 _ _ _ S). replace i with (i + 0) in S by lia. destruct (squeeze_at i 0 rho' rho S) as (j & S1 & _).
        apply squeeze_0 in S1. apply (IHc Hs Hf Hu (shift j rho) (shift i rho')); auto using maximal_shift.
        apply G. split; [exact Mr2|congruence].
      + intros G rho (Mr & Pr) i. apply (IHc Hs Hf Hu (shift i rho) (shift i rho)); auto using maximal_shift, maximal_more.
        apply G. split; [apply maximal_more; exact Mr|congruence].
    - apply andb_true_iff in Hs, Hf, Hu. destruct Hs as (Hs1 & Hs2), Hf as (Hf1 & Hf2), Hu as (Hu1 & Hu2). cbn [holds]. split.
      + intros (rho & (Mr & Pr) & i & Hi & Hj). exists rho. split; [split; [apply maximal_more; exact Mr|congruence]|]. exists i. split.
        * apply (IHc2 Hs2 Hf2 Hu2 (shift i rho) (shift i rho)); auto using maximal_shift, maximal_more.
        * intros j Lj. apply (IHc1 Hs1 Hf1 Hu1 (shift j rho) (shift j rho)); auto using maximal_shift, maximal_more.
      + intros (rho' & (Mr & Pr) & i & Hi & Hj). destruct (squeeze_exists i rho' Mr) as (rho & Mr2 & S).
        assert (S0 := squeeze_0 _ _ _ S). replace i with (i + 0) in S by lia. destruct (squeeze_at i 0 rho' rho S) as (j & S1 & S2).
        exists rho. split; [split; [exact Mr2|congruence]|]. exists j. split.
        * apply squeeze_0 in S1. apply (IHc2 Hs2 Hf2 Hu2 (shift j rho) (shift i rho')); auto using maximal_shift.
        * intros j' Hj'. destruct (S2 j' Hj') as (i' & n' & Hi' & _ & S3). apply squeeze_0 in S3.
          apply (IHc1 Hs1 Hf1 Hu1 (shift j' rho) (shift i' rho')); auto using maximal_shift.
    - cbn [holds]. split.
      + intros G rho' (Mr & Pr). apply NNPP. intros Hn.
        assert (Hn2 : ~ holds net rho' c) by (intros X; apply Hn; apply ltl_net; auto).
        destruct (squeeze_ltl c false Hs Hf Hu rho' Hn2) as (n & H).
        destruct (squeeze_exists n rho' Mr) as (rho & Mr2 & S). apply (H n rho (le_n n) S). apply G.
        split; [exact Mr2|]. apply squeeze_0 in S. congruence.
      + intros G rho (Mr & Pr). apply (ltl_net c rho Hs Hf). apply G. split; [apply maximal_more; exact Mr|congruence].
  Qed.
  Lemma loop_insensitive_sat : forall c m, stf c = true -> is_loop_sensitive c = false -> untils_negative c = true ->
    (sat net m c <-> sat net' m c).
  Proof.
    intros c m Hs Hl Hu. apply loop_sens_free in Hl.
    destruct (runs_exist net m W) as (pi & M & P). destruct (runs_exist net' m W') as (pi' & M' & P').
    rewrite (sat_holds net m c pi), (sat_holds net' m c pi') by auto. apply loop_insensitive; auto. congruence.
  Qed.
End Loops.
