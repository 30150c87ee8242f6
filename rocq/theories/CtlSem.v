(** The fixed points over the successor function are the CTL operators over runs. *)
From Coq Require Import Classical_Prop ClassicalChoice.
From Verif Require Import Base BaseLemmas NetSpec PqlSyntax PqlSpec PqlModel PqlProofs PqlRuns CtlModel CtlProofs.
Set Implicit Arguments.

Definition pcons (m : marking) (rho : path) : path := fun i => match i with 0 => m | S i => rho i end.

Section Sem.
  Variable net : pnet.
  Variable deadb : list N -> bool.
  Variable succs : list N -> list (list N).
  Variable R : marking -> Prop.
  Hypothesis Hwf : wf_pnet net.
  Hypothesis Rstep : forall m m', R m -> nstep net m m' -> R m'.
  Hypothesis Rsucc : forall m m', R m -> (In m' (succs m) <-> nstep net m m').
  Hypothesis Rfits : forall m, R m -> fits m.
  Hypothesis Rdead : forall m, R m -> (deadb m = true <-> dead net m).

  Lemma R_run : forall pi, maximal net pi -> forall i, R (pi 0) -> R (pi i).
  Proof. intros pi M i H0. induction i as [|i IH]; [exact H0|]. destruct (M i) as [S|(_ & ->)]; [apply (Rstep IH S)|exact IH]. Qed.
  Lemma succs_dead : forall m, R m -> dead net m -> succs m = [].
  Proof.
    intros m Hm Hd. destruct (succs m) as [|x l] eqn:E; [reflexivity|]. exfalso.
    destruct (proj1 (@Rsucc m x Hm)) as (t & tr & Ht & He & _); [rewrite E; left; reflexivity|]. apply (Hd t tr Ht He).
  Qed.
  Lemma pcons_max : forall m rho, maximal net rho -> nstep net m (rho 0) -> maximal net (pcons m rho).
  Proof. intros m rho M S [|i]; [left; exact S|]. exact (M i). Qed.

  Lemma EU_runs : forall (a b : marking -> Prop) m, R m ->
    ((exists rho, maximal net rho /\ rho 0 = m /\ exists i, b (rho i) /\ forall j, j < i -> a (rho j)) <-> EUi succs a b m).
  Proof.
    intros a b m Hm. split.
    - intros (rho & M & E & i & Hb & Ha). revert rho m Hm M E Hb Ha. induction i as [|i IH]; intros rho m Hm M E Hb Ha.
      + apply EU_now. congruence.
      + assert (K : EUi succs a b (rho 1)).
        { apply (IH (shift 1 rho)); [apply (R_run M 1); congruence|apply maximal_shift; exact M|reflexivity|exact Hb|intros j Hj; apply (Ha (S j)); lia]. }
        destruct (M 0) as [S|(_ & S)]; [|rewrite S, E in K; exact K]. apply EU_step with (rho 1); [rewrite <- E; apply Ha; lia| |exact K].
        apply Rsucc; [exact Hm|]. rewrite <- E. exact S.
    - intros K. revert Hm. induction K as [m Hb|m m' Ha Hin _ IH]; intros Hm.
      + destruct (runs_exist net m Hwf) as (rho & M & E). exists rho. split; [exact M|]. split; [exact E|]. exists 0. split; [rewrite E; exact Hb|intros j Hj; lia].
      + apply Rsucc in Hin; [|exact Hm]. destruct (IH (Rstep Hm Hin)) as (rho & M & E & i & Hb & Hall).
        exists (pcons m rho). split; [apply pcons_max; [exact M|congruence]|]. split; [reflexivity|]. exists (S i). split; [exact Hb|].
        intros [|j] Hj; [exact Ha|apply Hall; lia].
  Qed.
  Lemma AU_runs : forall (a b : marking -> Prop) m, R m ->
    ((forall rho, maximal net rho -> rho 0 = m -> exists i, b (rho i) /\ forall j, j < i -> a (rho j)) <-> AUi succs a b m).
  Proof.
    intros a b m Hm. split.
    - intros H. apply NNPP. intros Hn.
      assert (C : exists f : marking -> marking, forall x, R x -> (nstep net x (f x) \/ (dead net x /\ f x = x)) /\ (~ AUi succs a b x -> a x -> ~ AUi succs a b (f x))).
      { apply (choice (fun x y => R x -> (nstep net x y \/ (dead net x /\ y = x)) /\ (~ AUi succs a b x -> a x -> ~ AUi succs a b y))). intros x.
        destruct (classic (R x)) as [Hx|Hx]; [|exists x; contradiction].
        destruct (runs_exist net x Hwf) as (pi & M & E). assert (N0 : nstep net x (pi 1) \/ (dead net x /\ pi 1 = x)) by (rewrite <- E; exact (M 0)).
        destruct (classic (~ AUi succs a b x /\ a x)) as [(K1 & K2)|K]; [|exists (pi 1); intros _; split; [exact N0|tauto]].
        destruct (succs x) as [|y0 l] eqn:Es.
        - exists x. intros _. split; [|auto]. right. split; [|reflexivity]. destruct N0 as [N0|(N0 & _)]; [|exact N0]. apply Rsucc in N0; [|exact Hx]. rewrite Es in N0. contradiction.
        - assert (Hex : exists y, In y (succs x) /\ ~ AUi succs a b y).
          { apply NNPP. intros Hno. apply K1. apply AU_step; [exact K2|rewrite Es; discriminate|]. intros y Hy. apply NNPP. intros Hy'. apply Hno. exists y. auto. }
          destruct Hex as (y & Hy & Hny). exists y. intros _. split; [left; apply Rsucc; auto|auto]. }
      destruct C as (f & Hf). set (rho := fun n => Nat.iter n f m).
      assert (Hr : forall n, R (rho n)).
      { induction n as [|n IH]; [exact Hm|]. change (rho (S n)) with (f (rho n)). destruct (proj1 (Hf _ IH)) as [K|(_ & K)]; [apply (Rstep IH K)|rewrite K; exact IH]. }
      assert (M : maximal net rho) by (intros n; exact (proj1 (Hf _ (Hr n)))).
      destruct (H rho M eq_refl) as (i & Hb & Ha).
      assert (G : forall j, j <= i -> ~ AUi succs a b (rho j)).
      { induction j as [|j IH]; intros Hj; [exact Hn|]. change (rho (S j)) with (f (rho j)). apply (proj2 (Hf _ (Hr j))); [apply IH; lia|apply Ha; lia]. }
      apply (G i (le_n _)). apply AU_now. exact Hb.
    - intros K. revert Hm. induction K as [m Hb|m Ha Hne _ IH]; intros Hm rho M E.
      + exists 0. split; [congruence|intros j Hj; lia].
      + destruct (M 0) as [S|(D & _)]; [|exfalso; apply Hne; apply succs_dead; [exact Hm|rewrite E in D; exact D]]. rewrite E in S.
        destruct (IH (rho 1) (proj2 (@Rsucc _ (rho 1) Hm) S) (Rstep Hm S) (shift 1 rho)) as (i & Hb & Hall); [apply maximal_shift; exact M|reflexivity|].
        exists (Datatypes.S i). split; [exact Hb|]. intros [|j] Hj; [congruence|]. apply Hall. lia.
  Qed.

  Lemma holds_tsat : forall c, frag c = true -> forall pi, maximal net pi -> R (pi 0) -> (holds net pi c <-> tsat deadb succs c (pi 0)).
  Proof.
    assert (At : forall c, evalq c = true -> forall pi, maximal net pi -> R (pi 0) -> (holds net pi c <-> evaluate deadb (pi 0) c = RTrue)).
    { intros c Hc pi M Hr. destruct (@evaluate_path net deadb pi c M (Rfits Hr) (Rdead Hr)) as (A & B). split; [|exact A]. intros K.
      destruct (evaluate deadb (pi 0) c) eqn:E; [reflexivity|exfalso; apply (B eq_refl K)|]. exfalso. destruct c; try discriminate Hc.
      - destruct b; discriminate E. - cbn in E. destruct (deadb (pi 0)); discriminate E. - cbn in E. destruct (compare _ _ _); discriminate E. - cbn in E. destruct (xorb _ _); discriminate E. }
    induction c using cond_ind'; intros Hf pi M Hr; cbn [frag] in Hf; try discriminate Hf.
    - match goal with |- holds _ _ ?c <-> _ => apply (At c eq_refl pi M Hr) end.
    - match goal with |- holds _ _ ?c <-> _ => apply (At c eq_refl pi M Hr) end.
    - cbn [holds tsat]. rewrite (IHc Hf pi M Hr). tauto.
    - cbn [holds tsat]. rewrite Forall_forall in H. rewrite forallb_forall in Hf. clear At. induction l as [|c l IH]; cbn; [tauto|].
      rewrite (H c (or_introl eq_refl) (Hf c (or_introl eq_refl)) pi M Hr). rewrite IH; [tauto| |]; intros x Hx; [apply H|apply Hf]; right; exact Hx.
    - cbn [holds tsat]. rewrite Forall_forall in H. rewrite forallb_forall in Hf. clear At. induction l as [|c l IH]; cbn; [tauto|].
      rewrite (H c (or_introl eq_refl) (Hf c (or_introl eq_refl)) pi M Hr). rewrite IH; [tauto| |]; intros x Hx; [apply H|apply Hf]; right; exact Hx.
    - match goal with |- holds _ _ ?c <-> _ => apply (At c eq_refl pi M Hr) end.
    - match goal with |- holds _ _ ?c <-> _ => apply (At c eq_refl pi M Hr) end.
    - cbn [holds tsat]. unfold from. split.
      + intros (rho & (Mr & E) & S & K). exists (rho 1). split; [apply Rsucc; [exact Hr|]; rewrite <- E; exact S|].
        apply (IHc Hf (shift 1 rho)) in K; [exact K|apply maximal_shift; exact Mr|apply (R_run Mr 1); congruence].
      + intros (m' & Hin & K). apply Rsucc in Hin; [|exact Hr]. destruct (runs_exist net m' Hwf) as (rho & Mr & E).
        exists (pcons (pi 0) rho). split; [split; [apply pcons_max; [exact Mr|congruence]|reflexivity]|]. split; [cbn; congruence|].
        apply (IHc Hf (shift 1 (pcons (pi 0) rho))); [exact Mr|cbn; rewrite E; apply (Rstep Hr Hin)|cbn; rewrite E; exact K].
    - cbn [holds tsat]. unfold from. split.
      + intros K m' Hin. apply Rsucc in Hin; [|exact Hr]. destruct (runs_exist net m' Hwf) as (rho & Mr & E).
        specialize (K (pcons (pi 0) rho)). assert (K' : holds net (shift 1 (pcons (pi 0) rho)) c).
        { apply K; [split; [apply pcons_max; [exact Mr|congruence]|reflexivity]|cbn; congruence]. }
        apply (IHc Hf (shift 1 (pcons (pi 0) rho))) in K'; [cbn in K'; rewrite E in K'; exact K'|exact Mr|cbn; rewrite E; apply (Rstep Hr Hin)].
      + intros K rho (Mr & E) S. apply (IHc Hf (shift 1 rho)); [apply maximal_shift; exact Mr|apply (R_run Mr 1); congruence|].
        apply K. apply Rsucc; [exact Hr|]. rewrite <- E. exact S.
    - cbn [holds tsat]. rewrite <- (EU_runs (fun _ => True) (tsat deadb succs c) Hr). unfold from. split.
      + intros (rho & (Mr & E) & i & K). exists rho. split; [exact Mr|]. split; [exact E|]. exists i. split; [|auto].
        apply (IHc Hf (shift i rho)) in K; [unfold shift in K; rewrite Nat.add_0_r in K; exact K|apply maximal_shift; exact Mr|unfold shift; rewrite Nat.add_0_r; apply (R_run Mr i); congruence].
      + intros (rho & Mr & E & i & K & _). exists rho. split; [auto|]. exists i.
        apply (IHc Hf (shift i rho)); [apply maximal_shift; exact Mr|unfold shift; rewrite Nat.add_0_r; apply (R_run Mr i); congruence|unfold shift; rewrite Nat.add_0_r; exact K].
    - cbn [holds tsat]. rewrite <- (AU_runs (fun _ => True) (tsat deadb succs c) Hr). unfold from. split.
      + intros K rho Mr E. destruct (K rho (conj Mr E)) as (i & Ki). exists i. split; [|auto].
        apply (IHc Hf (shift i rho)) in Ki; [unfold shift in Ki; rewrite Nat.add_0_r in Ki; exact Ki|apply maximal_shift; exact Mr|unfold shift; rewrite Nat.add_0_r; apply (R_run Mr i); congruence].
      + intros K rho (Mr & E). destruct (K rho Mr E) as (i & Ki & _). exists i.
        apply (IHc Hf (shift i rho)); [apply maximal_shift; exact Mr|unfold shift; rewrite Nat.add_0_r; apply (R_run Mr i); congruence|unfold shift; rewrite Nat.add_0_r; exact Ki].
    - apply andb_prop in Hf. destruct Hf as (Hfa & Hfb). cbn [holds tsat]. rewrite <- (EU_runs (tsat deadb succs c1) (tsat deadb succs c2) Hr). unfold from.
      assert (G : forall rho c, (forall pi, maximal net pi -> R (pi 0) -> (holds net pi c <-> tsat deadb succs c (pi 0))) -> maximal net rho -> rho 0 = pi 0 -> forall i, holds net (shift i rho) c <-> tsat deadb succs c (rho i)).
      { intros rho c Hc Mr E i. rewrite (Hc (shift i rho)); [unfold shift; rewrite Nat.add_0_r; tauto|apply maximal_shift; exact Mr|unfold shift; rewrite Nat.add_0_r; apply (R_run Mr i); congruence]. }
      split.
      + intros (rho & (Mr & E) & i & K1 & K2). exists rho. split; [exact Mr|]. split; [exact E|]. exists i.
        split; [apply (G rho c2 (IHc2 Hfb) Mr E); exact K1|]. intros j Hj. apply (G rho c1 (IHc1 Hfa) Mr E). apply K2. exact Hj.
      + intros (rho & Mr & E & i & K1 & K2). exists rho. split; [auto|]. exists i.
        split; [apply (G rho c2 (IHc2 Hfb) Mr E); exact K1|]. intros j Hj. apply (G rho c1 (IHc1 Hfa) Mr E). apply K2. exact Hj.
    - apply andb_prop in Hf. destruct Hf as (Hfa & Hfb). cbn [holds tsat]. rewrite <- (AU_runs (tsat deadb succs c1) (tsat deadb succs c2) Hr). unfold from.
      assert (G : forall rho c, (forall pi, maximal net pi -> R (pi 0) -> (holds net pi c <-> tsat deadb succs c (pi 0))) -> maximal net rho -> rho 0 = pi 0 -> forall i, holds net (shift i rho) c <-> tsat deadb succs c (rho i)).
      { intros rho c Hc Mr E i. rewrite (Hc (shift i rho)); [unfold shift; rewrite Nat.add_0_r; tauto|apply maximal_shift; exact Mr|unfold shift; rewrite Nat.add_0_r; apply (R_run Mr i); congruence]. }
      split.
      + intros K rho Mr E. destruct (K rho (conj Mr E)) as (i & K1 & K2). exists i.
        split; [apply (G rho c2 (IHc2 Hfb) Mr E); exact K1|]. intros j Hj. apply (G rho c1 (IHc1 Hfa) Mr E). apply K2. exact Hj.
      + intros K rho (Mr & E). destruct (K rho Mr E) as (i & K1 & K2). exists i.
        split; [apply (G rho c2 (IHc2 Hfb) Mr E); exact K1|]. intros j Hj. apply (G rho c1 (IHc1 Hfa) Mr E). apply K2. exact Hj.
  Qed.
  Theorem sat_tsat : forall c m, frag c = true -> R m -> (sat net m c <-> tsat deadb succs c m).
  Proof.
    intros c m Hf Hm. split.
    - intros H. destruct (runs_exist net m Hwf) as (pi & M & E). rewrite <- E. apply (holds_tsat c Hf M); [congruence|]. apply H; auto.
    - intros H pi M E. apply (holds_tsat c Hf M); congruence.
  Qed.
End Sem.
