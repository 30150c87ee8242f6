(** Stubborn sets: commutation and the existence of reduced paths. *)
From Verif Require Import Base BaseLemmas NetSpec NetModel NetProofs PqlSyntax PqlSpec PqlProofs PqlRuns SearchMain StubSpec.

Section Theory.
  Variable net : pnet.
  Hypothesis Hwf : wf_pnet net.
  Definition trn (t : nat) : trans := nth t (pn_trans net) (mkTrans [] []).
  Definition effect (t p : nat) : Z := (Z.of_N (weight_at (tr_post (trn t)) p) - Z.of_N (weight_at (tr_pre (trn t)) p))%Z.
  Lemma step_trn : forall m t m', step net m t m' <-> t < length (pn_trans net) /\ fires (trn t) m m'.
  Proof.
    intros m t m'. unfold step, trn. split.
    - intros (tr & E & F). pose proof (nth_error_lt _ _ E). rewrite (nth_error_nth _ _ _ E). auto.
    - intros (L & F). exists (nth t (pn_trans net) (mkTrans [] [])). split; [apply nth_error_nth'; exact L|exact F].
  Qed.
  Lemma wf_trn : forall t, wf_trans (pn_places net) (trn t).
  Proof.
    intros t. unfold trn. destruct (Nat.lt_ge_cases t (length (pn_trans net))).
    - apply Hwf. apply nth_In. exact H.
    - rewrite nth_overflow by exact H. repeat split; cbn; try tauto; constructor.
  Qed.
  Lemma step_effect : forall m t m' p, step net m t m' -> p < length m ->
    Z.of_N (tokens m' p) = (Z.of_N (tokens m p) + effect t p)%Z.
  Proof.
    intros m t m' p H Hp. apply step_trn in H. destruct H as (_ & _ & _ & F). destruct (F p Hp) as (A & B). unfold effect. lia.
  Qed.
  Lemma step_length : forall m t m', step net m t m' -> length m' = length m.
  Proof. intros m t m' (tr & _ & _ & E & _). exact E. Qed.
  Lemma tokens_over : forall m p, length m <= p -> tokens m p = 0%N.
  Proof. intros m p H. unfold tokens. apply nth_overflow. exact H. Qed.

  Variable S : nat -> bool.
  Definition nsrun (m : marking) (w : list nat) (m' : marking) : Prop := run net m w m' /\ Forall (fun t => S t = false) w.

  Definition only_up (p : nat) : Prop := forall u, u < length (pn_trans net) -> (0 < effect u p)%Z -> S u = true.
  Definition only_down (p : nat) : Prop := forall u, u < length (pn_trans net) -> (effect u p < 0)%Z -> S u = true.
  Lemma not_up : forall p m w m', only_up p -> nsrun m w m' -> (tokens m' p <= tokens m p)%N.
  Proof.
    intros p m w m' U (R & F). induction R as [m|m t m1 w m2 St R IH]; [lia|].
    inversion F as [|? ? Ft Fw]; subst. specialize (IH Fw).
    destruct (Nat.lt_ge_cases p (length m)) as [Hp|Hp].
    - pose proof (@step_effect _ _ _ _ St Hp) as E. pose proof (proj1 (proj1 (@step_trn _ _ _) St)) as Lt. specialize (U t Lt).
      destruct (Z.lt_ge_cases 0 (effect t p)) as [G|G]; [rewrite U in Ft by exact G; discriminate|]. lia.
    - pose proof (@step_length _ _ _ St) as E. rewrite (tokens_over m1) in IH by lia. lia.
  Qed.
  Lemma not_down : forall p m w m', only_down p -> nsrun m w m' -> (tokens m p <= tokens m' p)%N.
  Proof.
    intros p m w m' U (R & F). induction R as [m|m t m1 w m2 St R IH]; [lia|].
    inversion F as [|? ? Ft Fw]; subst. specialize (IH Fw).
    destruct (Nat.lt_ge_cases p (length m)) as [Hp|Hp].
    - pose proof (@step_effect _ _ _ _ St Hp) as E. pose proof (proj1 (proj1 (@step_trn _ _ _) St)) as Lt. specialize (U t Lt).
      destruct (Z.lt_ge_cases (effect t p) 0) as [G|G]; [rewrite U in Ft by exact G; discriminate|]. lia.
    - rewrite (tokens_over m) by lia. lia.
  Qed.

  (** a transition cannot be disabled by [t] unless it is chosen *)
  Definition indep (t : nat) : Prop := forall u a, u < length (pn_trans net) -> S u = false -> In a (tr_pre (trn u)) ->
    if arc_inhib a then (effect t (arc_place a) <= 0)%Z else (0 <= effect t (arc_place a))%Z.
  (** something only chosen transitions change keeps [t] disabled *)
  Definition blocked (m : marking) (t : nat) : Prop := exists a, In a (tr_pre (trn t)) /\ ~ arc_ok m a /\
    if arc_inhib a then only_down (arc_place a) else only_up (arc_place a).
  Definition closed_at (m : marking) (t : nat) : Prop := (enabled (trn t) m -> indep t) /\ (~ enabled (trn t) m -> blocked m t).

  Lemma blocked_run : forall m t w m', blocked m t -> nsrun m w m' -> ~ enabled (trn t) m'.
  Proof.
    intros m t w m' (a & Ia & Na & D) R E. specialize (E a Ia). apply Na. unfold arc_ok in *. destruct (arc_inhib a).
    - pose proof (@not_down _ _ _ _ D R). lia.
    - pose proof (@not_up _ _ _ _ D R). lia.
  Qed.
  Definition shifted (t : nat) (m m' : marking) : Prop := length m' = length m /\
    forall p, p < length m -> Z.of_N (tokens m' p) = (Z.of_N (tokens m p) + effect t p)%Z.
  Lemma shift_step : forall t m m' u m1, indep t -> length m = pn_places net -> shifted t m m' -> S u = false -> step net m u m1 ->
    exists m1', step net m' u m1' /\ shifted t m1 m1'.
  Proof.
    intros t m m' u m1 I Lm (Ls & Hs) Su St. pose proof St as St0. apply step_trn in St. destruct St as (Lu & En & L1 & F).
    pose proof (wf_trn u) as (W1 & W2 & W3 & W4).
    assert (E' : enabled (trn u) m').
    { intros a Ia. specialize (En a Ia). specialize (I u a Lu Su Ia). unfold arc_ok in *.
      pose proof (W1 a Ia) as Hp. rewrite <- Lm in Hp. specialize (Hs _ Hp). destruct (arc_inhib a); lia. }
    exists (fire_fun (trn u) m'). pose proof (@fire_fun_fires (trn u) m' W3 E') as Ff.
    assert (St' : step net m' u (fire_fun (trn u) m')) by (apply step_trn; auto).
    split; [exact St'|]. pose proof (@step_length _ _ _ St') as E. split; [lia|].
    intros p Hp. rewrite L1 in Hp. rewrite (@step_effect _ _ _ p St') by lia.
    rewrite (@step_effect _ _ _ p St0) by lia. rewrite (Hs p Hp). lia.
  Qed.
  Lemma shift_run : forall t m w m1, indep t -> nsrun m w m1 -> forall m', length m = pn_places net -> shifted t m m' ->
    exists m1', run net m' w m1' /\ shifted t m1 m1'.
  Proof.
    intros t m w m1 I (R & F). induction R as [m|m u ma w m1 St R IH]; intros m' Lm Hs.
    - exists m'. split; [constructor|exact Hs].
    - inversion F as [|? ? Fu Fw]; subst. destruct (@shift_step _ _ _ _ _ I Lm Hs Fu St) as (mb & Sb & Hb).
      destruct (IH Fw mb) as (m1' & R' & H1); [rewrite (@step_length _ _ _ St); exact Lm|exact Hb|].
      exists m1'. split; [econstructor; eauto|exact H1].
  Qed.
  Lemma step_shifted : forall t m m', step net m t m' -> shifted t m m'.
  Proof. intros t m m' H. split; [exact (@step_length _ _ _ H)|]. intros p Hp. apply step_effect; assumption. Qed.
  Lemma shifted_fun : forall t m m1 m2, shifted t m m1 -> shifted t m m2 -> m1 = m2.
  Proof.
    intros t m m1 m2 (L1 & H1) (L2 & H2). apply (list_eq_nth 0%N); [lia|]. intros i Hi.
    specialize (H1 i ltac:(lia)). specialize (H2 i ltac:(lia)). unfold tokens in *. lia.
  Qed.
  Lemma run_length : forall m w m', run net m w m' -> length m' = length m.
  Proof. intros m w m' R. induction R as [|m t m1 w m2 St R IH]; [reflexivity|]. rewrite IH. exact (@step_length _ _ _ St). Qed.

  Lemma commute : forall m w m1 t m2, length m = pn_places net -> closed_at m t -> nsrun m w m1 -> step net m1 t m2 ->
    exists m', step net m t m' /\ run net m' w m2.
  Proof.
    intros m w m1 t m2 Lm (C1 & C2) R St. pose proof (proj1 (@step_trn _ _ _) St) as (Lt & En1 & _).
    assert (En : enabled (trn t) m).
    { destruct (enabledb (trn t) m) eqn:E; [apply enabledb_spec; exact E|]. exfalso.
      assert (N : ~ enabled (trn t) m) by (rewrite <- enabledb_spec; congruence).
      exact (@blocked_run _ _ _ _ (C2 N) R En1). }
    pose proof (wf_trn t) as (W1 & W2 & W3 & W4).
    assert (Sm : step net m t (fire_fun (trn t) m)) by (apply step_trn; split; [exact Lt|apply fire_fun_fires; auto]).
    exists (fire_fun (trn t) m). split; [exact Sm|].
    destruct (@shift_run _ _ _ _ (C1 En) R _ Lm (step_shifted _ _ _ Sm)) as (m1' & R' & H1).
    rewrite (@shifted_fun _ _ _ _ (step_shifted _ _ _ St) H1). exact R'.
  Qed.

  (** the first chosen transition of a run *)
  Lemma first_in : forall w, Forall (fun t => S t = false) w \/ exists w1 t w2, w = w1 ++ t :: w2 /\ S t = true /\ Forall (fun t => S t = false) w1.
  Proof.
    induction w as [|t w IH]; [left; constructor|]. destruct (S t) eqn:E; [right; exists [], t, w; auto|].
    destruct IH as [IH|(w1 & u & w2 & -> & A & B)]; [left; constructor; assumption|].
    right. exists (t :: w1), u, w2. repeat split; auto.
  Qed.
End Theory.

Lemma run_split : forall net w1 m0 w2 m2, run net m0 (w1 ++ w2) m2 -> exists m1, run net m0 w1 m1 /\ run net m1 w2 m2.
Proof.
  induction w1 as [|t w1 IH]; intros m0 w2 m2 H; cbn in H; [exists m0; split; [constructor|exact H]|].
  inversion H as [|? ? ma ? ? St R]; subst. destruct (IH _ _ _ R) as (m1 & A & B). exists m1. split; [econstructor; eauto|exact B].
Qed.

(** what must be true of the transitions chosen in a marking for a goal: the goal holds, or
    there is a closed set whose enabled transitions are chosen and outside of which the goal
    cannot become true *)
Definition good_choice (net : pnet) (goal : marking -> Prop) (m : marking) (l : list nat) : Prop :=
  goal m \/ exists S : nat -> bool,
    (forall t, t < length (pn_trans net) -> S t = true -> closed_at net S m t) /\
    (forall t m', S t = true -> step net m t m' -> In t l) /\
    (forall w m', nsrun net S m w m' -> ~ goal m').

Lemma reduced_reach : forall net goal sel m0, wf_pnet net -> length m0 = pn_places net ->
  (forall m, explored net sel m0 m -> good_choice net goal m (sel m)) ->
  forall g, reachable net m0 g -> goal g -> exists g', explored net sel m0 g' /\ goal g'.
Proof.
  intros net goal sel m0 Hwf L0 G g (w & R) Hg.
  assert (P : forall n m w, length w <= n -> explored net sel m0 m -> length m = pn_places net -> run net m w g -> exists g', explored net sel m0 g' /\ goal g').
  { clear w R. induction n as [|n IH]; intros m w Lw Em Lm R; (destruct (G m Em) as [Gm|(S & C & D & Fz)]; [exists m; auto|]).
    - exfalso. destruct w; [|cbn in Lw; lia]. inversion R; subst. apply (Fz [] g); [split; [constructor|constructor]|exact Hg].
    - destruct (@first_in S w) as [N|(w1 & t & w2 & -> & St & N)]; [exfalso; apply (Fz w g); [split; assumption|exact Hg]|].
      destruct (@run_split _ _ _ _ _ R) as (m1 & R1 & R2). inversion R2 as [|? ? m2 ? ? St2 R3]; subst.
      assert (Lt : t < length (pn_trans net)) by (exact (proj1 (proj1 (@step_trn net m1 t m2) St2))).
      destruct (@commute net Hwf S m w1 m1 t m2 Lm (C t Lt St) (conj R1 N) St2) as (m' & Sm & R').
      apply (IH m' (w1 ++ w2)).
      + rewrite app_length in *. cbn [length] in Lw. lia.
      + eapply ex_next; [exact Em| |exact Sm]. eapply D; eauto.
      + rewrite (@step_length _ _ _ _ Sm). exact Lm.
      + eapply run_app; eassumption. }
  exact (P (length w) m0 w (le_n _) (ex_start _ _ _) L0 R).
Qed.
Lemma explored_reachable : forall net sel m0 m, explored net sel m0 m -> reachable net m0 m.
Proof.
  intros net sel m0 m H. induction H as [|m t m' _ (w & R) _ St]; [exists []; constructor|].
  exists (w ++ [t]). eapply run_snoc; eassumption.
Qed.
