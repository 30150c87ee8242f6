(** The search over the automaton. *)
From Verif Require Import Base BaseLemmas NetSpec NetModel NetProofs PqlSyntax PqlSpec PqlModel PqlProofs RangeSpec RangeModel RangeProofs AntiModel AntiProofs StubModel StubMain StubProofs
  QueryModel TarModel TarSpec TarVec TarSem TarRc TarAut TarHoare TarCheck TarFree.

Lemma includes_incl : forall a b, includes a b = true -> forall x, In x b -> In x a.
Proof.
  induction a as [|x a IH]; intros [|y b] H z I; cbn [includes] in H; try discriminate; try (destruct I; fail).
  destruct (Nat.ltb_spec y x) as [|L1]; [discriminate|]. destruct (Nat.ltb_spec x y) as [|L2].
  - right. exact (IH _ H z I).
  - destruct I as [<-|I]; [left; lia|right; exact (IH b H z I)].
Qed.
Lemma subsumed_some : forall c k set, subsumed c k set = true -> exists s, In s (chain_of c k) /\ forall x, In x s -> In x set.
Proof.
  intros c k set H. unfold subsumed in H. destruct (k <? length c); [|discriminate]. apply existsb_exists in H. destruct H as (s & A & B).
  exists s. split; [exact A|]. intros x. apply includes_incl. exact B.
Qed.

Section Run.
  Variable net : cnet.
  Hypothesis L : layout net.
  Hypothesis P0 : 0 < cn_places net.
  Hypothesis NI : has_inhib net = false.
  Notation P := (to_pnet net).
  Notation np := (cn_places net).
  Notation nt := (cn_ntrans net).
  Variable query : cond.
  Variable inq : list bool.
  Variable R : marking -> Prop.
  Hypothesis Rstep : forall m t m', R m -> step P m t m' -> R m'.
  Hypothesis Rlen : forall m, R m -> length m = np.
  Hypothesis Rnz : forall m, R m -> exists p, p < np /\ tokens m p <> 0%N.
  Variable Q : marking -> Prop.
  Notation good := (good net R Q).
  Notation edge_cnt := (edge_cnt net).
  Notation s_done := (s_done net).
  Notation do_step := (do_step net).

  Lemma do_none : forall T s m, good T -> R m -> do_step T s = None -> holds_all T (s_int s) m ->
    match edge_cnt s with S t => forall m', ~ step P m t m' | 0 => ~ Q m end.
  Proof.
    intros T s m G Hm E H. unfold TarModel.do_step in E. destruct (follow T (s_int s) (edge_cnt s) [1]) eqn:F; [destruct (Nat.eqb (edge_cnt s) 0); discriminate|].
    exact (follow_none net P0 R Rstep Rnz Q T (edge_cnt s) (s_int s) [1] m G Hm F H).
  Qed.
  Lemma do_some : forall T s next t m m', good T -> R m -> do_step T s = Some next -> edge_cnt s = S t -> holds_all T (s_int s) m -> step P m t m' -> holds_all T next m'.
  Proof.
    intros T s next t m m' G Hm E Et H St. unfold TarModel.do_step in E. destruct (follow T (s_int s) (edge_cnt s) [1]) as [nx|] eqn:F; [|discriminate].
    rewrite Et in *. cbn [Nat.eqb] in E. replace (S t - 1) with t in E by lia. injection E as <-. apply (maximize_ok net R Q); [exact G|].
    apply (copy_ok net L P0 NI R Rlen Q T t _ _ m m' G Hm St H). eapply (follow_some net R Q); try eassumption.
    intros i [<-|[]]. exists []. split; [apply G|intros p r []].
  Qed.
  Definition inside (T : tset) (l : list nat) : Prop := forall i, In i l -> i < length (ints T).
  Lemma ints_lt : forall T i v, nth_error (ints T) i = Some v -> i < length (ints T).
  Proof. intros T i v H. apply nth_error_Some. congruence. Qed.
  Lemma sim_inside : forall T i j, good T -> In j (sim_of T i) -> j < length (ints T).
  Proof.
    intros T i j G I. unfold sim_of in I. destruct (nth_error (ts_states T) i) as [a|] eqn:E.
    - rewrite (nth_error_nth _ _ _ E) in I. destruct (g_sim net R Q T G i a j E I) as (_ & w & W & _). eapply ints_lt; exact W.
    - apply nth_error_None in E. rewrite nth_overflow in I by exact E. destruct I.
  Qed.
  Lemma one_inside : forall T, good T -> 1 < length (ints T).
  Proof. intros T G. eapply ints_lt. apply G. Qed.
  Lemma maximize_inside : forall T l, good T -> inside T l -> inside T (maximize T l).
  Proof.
    intros T l G H. unfold maximize. assert (B : inside T (sins 1 l)).
    { intros i I. apply sins_in in I. destruct I as [->|I]; [apply one_inside; exact G|apply H; exact I]. }
    revert B. generalize (sins 1 l) as acc. clear H. induction l as [|i l IH]; intros acc B; cbn [fold_left]; [exact B|]. apply IH.
    intros j I. apply sins_all_in in I. destruct I as [I|I]; [eapply sim_inside; eassumption|apply B; exact I].
  Qed.
  Lemma copy_inside : forall T wr from to, inside T from -> inside T to -> inside T (copy_non_changed T from wr to).
  Proof.
    intros T wr. induction from as [|i from IH]; intros to H Ht; unfold copy_non_changed; cbn [fold_left]; [exact Ht|].
    apply IH; [intros j I; apply H; right; exact I|]. destruct (restricts (int_of T i) wr); [exact Ht|]. intros j I. apply sins_in in I. destruct I as [->|I]; [apply H; left; reflexivity|apply Ht; exact I].
  Qed.
  Lemma follow_inside : forall T e from next nx, good T -> inside T next -> follow T from e next = Some nx -> inside T nx.
  Proof.
    intros T e. induction from as [|i from IH]; intros next nx G H E; cbn [follow] in E; [injection E as <-; exact H|].
    destruct (Nat.eqb i 0); [eapply IH; eassumption|].
    assert (X : forall to, targets T i e = to -> inside T (sins_all to next)).
    { intros to Tg j I. apply sins_all_in in I. destruct I as [I|I]; [|apply H; exact I]. rewrite <- Tg in I. destruct (target_ok net R Q T i e j G I) as (v & w & _ & B & _). eapply ints_lt; exact B. }
    destruct (targets T i e) as [|[|j] to] eqn:Tg; [|discriminate|]; (eapply IH; [exact G|apply X; reflexivity|exact E]).
  Qed.
  Lemma do_inside : forall T s next, good T -> inside T (s_int s) -> do_step T s = Some next -> inside T next.
  Proof.
    intros T s next G H E. unfold TarModel.do_step in E. destruct (follow T (s_int s) (edge_cnt s) [1]) as [nx|] eqn:F; [|discriminate].
    assert (I : inside T nx). { eapply follow_inside; [exact G| |exact F]. intros i [<-|[]]. apply one_inside. exact G. }
    destruct (Nat.eqb (edge_cnt s) 0); injection E as <-; [exact I|]. apply maximize_inside; [exact G|]. apply copy_inside; assumption.
  Qed.

  (** ** The sets that were entered *)
  Variable T : tset.
  Hypothesis G : good T.
  Variable use : list bool.
  (** an edge of a set is dealt with *)
  Definition hd (H : list (list nat)) (l : list nat) (e : nat) : Prop :=
    nth e use false = false \/ exists s, s_int s = l /\ edge_cnt s = e /\
      (do_step T s = None \/ exists next l', e <> 0 /\ do_step T s = Some next /\ In l' H /\ forall x, In x (minimize T l') -> In x next).
  Definition full (H : list (list nat)) (l : list nat) : Prop := forall e, e <= nt -> hd H l e.
  Definition part (H : list (list nat)) (s : tstate) (n : nat) : Prop := forall c, c < n -> hd H (s_int s) (edge_cnt (mkS (s_off s) c (s_int s))).
  Lemma hd_more : forall H H' l e, (forall x, In x H -> In x H') -> hd H l e -> hd H' l e.
  Proof.
    intros H H' l e I [A|(s & A & B & [C|(nx & l' & C & D & E & F)])]; [left; exact A|right; exists s; auto|].
    right. exists s. split; [exact A|]. split; [exact B|]. right. exists nx, l'. auto.
  Qed.
  Lemma part_full : forall H s n, nt < n -> part H s n -> full H (s_int s).
  Proof.
    intros H s n Hn Pt e He. destruct e as [|t].
    - specialize (Pt 0). apply Pt. lia.
    - assert (Z : nt <> 0) by lia. set (o := s_off s mod nt). assert (Ho : o < nt) by (apply Nat.mod_upper_bound; exact Z).
      assert (X : exists k, k < nt /\ (k + s_off s) mod nt = t).
      { destruct (Nat.le_gt_cases o t) as [A|A].
        - exists (t - o). split; [lia|]. rewrite <- Nat.add_mod_idemp_r by exact Z. fold o. replace (t - o + o) with t by lia. apply Nat.mod_small. lia.
        - exists (t + nt - o). split; [lia|]. rewrite <- Nat.add_mod_idemp_r by exact Z. fold o. replace (t + nt - o + o) with (t + 1 * nt) by lia. rewrite Nat.mod_add by exact Z. apply Nat.mod_small. lia. }
      destruct X as (k & Hk & Ek). specialize (Pt (S k)). unfold TarModel.edge_cnt in Pt. cbn [s_cnt s_off] in Pt. rewrite Ek in Pt. apply Pt. lia.
  Qed.
  Definition below (H : list (list nat)) (s : tstate) : Prop := part H s (S (s_cnt s)) /\ edge_cnt s <> 0 /\ s_cnt s <= nt.
  Definition inv (H : list (list nat)) (w : list tstate) : Prop :=
    (forall l, In l H -> full H l \/ exists s, In s w /\ s_int s = l) /\ (forall s, In s w -> In (s_int s) H) /\
    match w with [] => True | s :: w' => part H s (s_cnt s) /\ forall s', In s' w' -> below H s' end.
  Definition popi := fix pop (p : tstate) (w : list tstate) : list tstate :=
    if s_done (next_edge p) then match w with [] => [] | q :: w' => pop q w' end else next_edge p :: w.
  Lemma done_lt : forall s, s_done s = true <-> nt < s_cnt s. Proof. intros s. apply Nat.ltb_lt. Qed.
  Lemma pop_inv : forall H w p, (forall l, In l H -> full H l \/ exists s, In s (p :: w) /\ s_int s = l) -> (forall s, In s (p :: w) -> In (s_int s) H) ->
    (forall s, In s (p :: w) -> below H s) -> inv H (popi p w).
  Proof.
    intros H. induction w as [|q w IH]; intros p A B C; cbn [popi]; (destruct (s_done (next_edge p)) eqn:E;
      [apply done_lt in E; cbn [next_edge s_cnt] in E; assert (F : full H (s_int p)) by (eapply part_full; [exact E|apply C; left; reflexivity])|]).
    - split; [|split; [intros s []|exact I]]. intros l I. destruct (A l I) as [X|(s & [<-|[]] & <-)]; auto.
    - split; [|split; [|split]].
      + intros l I. destruct (A l I) as [X|(s & [<-|J] & <-)]; [auto| |destruct J]. right. exists (next_edge p). split; [left; reflexivity|reflexivity].
      + intros s [<-|[]]. apply (B p). left. reflexivity.
      + apply (C p). left. reflexivity.
      + intros s [].
    - apply IH.
      + intros l I. destruct (A l I) as [X|(s & [<-|J] & <-)]; eauto.
      + intros s I. apply B. right. exact I.
      + intros s I. apply C. right. exact I.
    - split; [|split; [|split]].
      + intros l I. destruct (A l I) as [X|(s & [<-|J] & <-)]; [auto| |]; right; [exists (next_edge p)|exists s]; cbn; auto.
      + intros s [<-|I]; [apply (B p); left; reflexivity|apply B; right; exact I].
      + apply (C p). left. reflexivity.
      + intros s I. apply C. right. exact I.
  Qed.
  Lemma pop_done_inv : forall H s w, s_done s = true -> inv H (s :: w) -> inv H (pop_done net (s :: w)).
  Proof.
    intros H s w E (A & B & C & D). cbn [pop_done]. rewrite E. apply done_lt in E. pose proof (part_full H s _ E C) as F.
    assert (A' : forall l, In l H -> full H l \/ exists s0, In s0 w /\ s_int s0 = l).
    { intros l I. destruct (A l I) as [X|(s' & [<-|J] & <-)]; eauto. }
    destruct w as [|p w]; [split; [exact A'|split; [intros s' []|exact I]]|]. apply pop_inv; [exact A'|intros s' I; apply B; right; exact I|exact D].
  Qed.
  Lemma next_inv : forall H s w, inv H (s :: w) -> hd H (s_int s) (edge_cnt s) -> inv H (next_edge s :: w).
  Proof.
    intros H s w (A & B & C & D) E. split; [|split; [|split]].
    - intros l I. destruct (A l I) as [X|(s' & [<-|J] & <-)]; [auto| |]; right; [exists (next_edge s)|exists s']; cbn; auto.
    - intros s' [<-|I]; [apply (B s); left; reflexivity|apply B; right; exact I].
    - intros c Hc. cbn [next_edge s_cnt s_off s_int] in *. destruct (Nat.eq_dec c (s_cnt s)) as [->|N]; [|apply C; lia]. destruct s; exact E.
    - exact D.
  Qed.
  Lemma push_inv : forall H s w next o, inv H (s :: w) -> edge_cnt s <> 0 -> s_cnt s <= nt -> do_step T s = Some next -> inv (next :: H) (mkS o 0 next :: s :: w).
  Proof.
    intros H s w next o (A & B & C & D) E Le F. assert (M : forall l e, hd H l e -> hd (next :: H) l e) by (intros l e; apply hd_more; intros x I; right; exact I). split; [|split; [|split]].
    - intros l [<-|I]; [right; exists (mkS o 0 next); split; [left; reflexivity|reflexivity]|]. destruct (A l I) as [X|(s' & J & <-)].
      + left. intros e He. apply M, X, He.
      + right. exists s'. split; [right; exact J|reflexivity].
    - intros s' [<-|I]; [left; reflexivity|right; apply B; exact I].
    - intros c Hc. cbn in Hc. lia.
    - intros s' [<-|I].
      + split; [|split; assumption]. intros c Hc. destruct (Nat.eq_dec c (s_cnt s)) as [->|N]; [|apply M, C; lia].
        right. exists s. split; [reflexivity|]. split; [destruct s; reflexivity|]. right. exists next, next. split; [destruct s; exact E|]. split; [exact F|]. split; [left; reflexivity|].
        intros x X. apply minimize_in in X. apply X.
      + destruct (D s' I) as (X & Y). split; [|exact Y]. intros c Hc. apply M, X, Hc.
  Qed.

  (** the result of a search *)
  Variable rnd : nat -> nat.
  Variable Sat : Prop.
  Hypothesis Ck : forall tr b T', trace_ok net tr -> check net query inq tr T = Ok (b, T') -> good T' /\ (b = true -> Sat).
  Lemma edge_le : forall s, s_cnt s <= nt -> edge_cnt s <= nt.
  Proof.
    intros s H. unfold TarModel.edge_cnt. destruct (s_cnt s) as [|k]; [lia|]. assert (Z : nt <> 0) by lia. pose proof (Nat.mod_upper_bound (k + s_off s) nt Z). lia.
  Qed.
  Lemma trace_of : forall s w, edge_cnt s = 0 -> (forall s', In s' w -> edge_cnt s' <> 0 /\ edge_cnt s' <= nt) -> trace_ok net (map edge_cnt (rev (s :: w))).
  Proof.
    intros s w E H. split.
    - intros e I. apply in_map_iff in I. destruct I as (s' & <- & I). apply in_rev in I. destruct I as [<-|I]; [lia|apply H; exact I].
    - intros i Hi. cbn [rev] in *. rewrite map_app in *. rewrite app_length in Hi. cbn [map length] in Hi. rewrite app_nth1 by lia.
      rewrite map_length in Hi. assert (X : In (nth i (map edge_cnt (rev w)) 0) (map edge_cnt (rev w))) by (apply nth_In; rewrite map_length; lia).
      apply in_map_iff in X. destruct X as (s' & X & I). rewrite <- X. apply in_rev in I. apply H. exact I.
  Qed.
  Definition ran (H : list (list nat)) (l0 : list nat) : Prop := In l0 H /\ (forall l, In l H -> full H l) /\ forall l, In l H -> inside T l.
  Lemma run_loop_ok : forall l0 fuel w checked k H fin sat T' k', In l0 H -> (forall l, In l H -> inside T l) -> inv H w ->
    (forall s, In s (chain_of checked 0) -> exists l, In l H /\ s = minimize T l) ->
    run_loop net query inq rnd use fuel T w checked k = Ok (fin, sat, T', k') ->
    good T' /\ (sat = true -> Sat) /\ (fin = true -> sat = false -> exists H', ran H' l0).
  Proof.
    intros l0. induction fuel as [|fuel IH]; intros w checked k H fin sat T' k' Hl Hi Iv Ch E; cbn [run_loop] in E; [discriminate|].
    destruct w as [|s w].
    { injection E as <- <- <- _. split; [exact G|]. split; [discriminate|]. intros _ _. exists H. split; [exact Hl|]. split; [|exact Hi].
      intros l I. destruct (proj1 Iv l I) as [F|(s & [] & _)]. exact F. }
    destruct (s_done s) eqn:Ds.
    { eapply IH; [exact Hl|exact Hi|exact (pop_done_inv H s w Ds Iv)|exact Ch|exact E]. }
    assert (Le : s_cnt s <= nt). { destruct (Nat.le_gt_cases (s_cnt s) nt) as [X|X]; [exact X|]. apply done_lt in X. congruence. }
    destruct (nth (edge_cnt s) use false) eqn:Us; cbn [negb] in E.
    2: { eapply IH; [exact Hl|exact Hi|apply next_inv; [exact Iv|left; exact Us]|exact Ch|exact E]. }
    destruct (do_step T s) as [next|] eqn:Dn.
    2: { eapply IH; [exact Hl|exact Hi|apply next_inv; [exact Iv|right; exists s; auto]|exact Ch|exact E]. }
    destruct (Nat.eqb_spec (edge_cnt s) 0) as [Z|Z].
    { unfold bind in E. destruct (check net query inq (map edge_cnt (rev (s :: w))) T) as [[b T1]| | |] eqn:C; try discriminate. cbn [fst snd] in E. injection E as <- <- <- _.
      destruct (fun Ht => Ck _ _ _ Ht C) as (A & B).
      { apply trace_of; [exact Z|]. intros s' I. destruct Iv as (_ & _ & _ & D). destruct (D s' I) as (_ & X & Y). split; [exact X|apply edge_le; exact Y]. }
      split; [exact A|]. split; [exact B|]. intros -> X. discriminate. }
    destruct (subsumed checked 0 next) eqn:Sb.
    { eapply IH; [exact Hl|exact Hi| |exact Ch|exact E]. apply next_inv; [exact Iv|]. right. exists s. split; [reflexivity|]. split; [reflexivity|]. right.
      apply subsumed_some in Sb. destruct Sb as (st & I & J). destruct (Ch st I) as (l & Il & ->). exists next, l. auto. }
    eapply (IH _ _ _ (next :: H)); [right; exact Hl| |apply push_inv; eassumption| |exact E].
    - intros l [<-|I]; [|apply Hi; exact I]. eapply do_inside; [exact G| |exact Dn]. apply Hi. apply Iv. left. reflexivity.
    - intros st I. rewrite insert_chain in I. cbn [Nat.eqb andb] in I. destruct (negb (subsumed checked 0 (minimize T next))).
      + apply in_app_iff in I. destruct I as [I|[<-|[]]]; [apply filter_In in I; destruct (Ch st (proj1 I)) as (l & Il & Es); exists l; split; [right; exact Il|exact Es]|exists next; split; [left; reflexivity|reflexivity]].
      + destruct (Ch st I) as (l & Il & Es). exists l. split; [right; exact Il|exact Es].
  Qed.
  Lemma run_tar_ok : forall fuel k fin sat T' k', run_tar net query inq rnd use fuel T k = Ok (fin, sat, T', k') ->
    good T' /\ (sat = true -> Sat) /\ (fin = true -> sat = false -> exists H, ran H (maximize T (ts_init T))).
  Proof.
    intros fuel k fin sat T' k' E. unfold run_tar in E.
    assert (I0 : inside T (maximize T (ts_init T))).
    { apply maximize_inside; [exact G|]. intros i I. destruct (g_init net R Q T G i I) as (v & A & _). eapply ints_lt. exact A. }
    eapply (run_loop_ok _ fuel _ _ _ [maximize T (ts_init T)]); [left; reflexivity| | | |exact E].
    - intros l [<-|[]]. exact I0.
    - split; [|split; [|split]].
      + intros l [<-|[]]. right. eexists. split; [left; reflexivity|reflexivity].
      + intros s [<-|[]]. left. reflexivity.
      + intros c Hc. cbn in Hc. lia.
      + intros s [].
    - intros s []. 
  Qed.
  (** what a finished search covers *)
  Lemma ran_safe : forall H l0, ran H l0 -> nth 0 use false = true -> forall m0 w m, run P m0 w m -> (forall t, In t w -> nth (S t) use false = true) ->
    R m0 -> (exists l, In l H /\ holds_all T l m0) -> ~ Q m.
  Proof.
    intros H l0 (_ & F & I) U0 m0 w m Ru. induction Ru as [m|m t m1 w m2 St Ru IH]; intros U Rm (l & Il & Hl).
    - destruct (F l Il 0 (Nat.le_0_l _)) as [A|(s & A & B & [C|(nx & l' & C & _)])]; [congruence| |congruence].
      subst l. pose proof (do_none T s m G Rm C Hl) as X. rewrite B in X. exact X.
    - apply IH; [intros t' I'; apply U; right; exact I'|exact (Rstep m t m1 Rm St)|].
      assert (Lt : S t <= nt). { destruct (step_ft net L P0 NI m t m1 St (Rlen m Rm)) as (X & _). lia. }
      destruct (F l Il (S t) Lt) as [A|(s & A & B & [C|(nx & l' & C & D & E & J)])].
      + specialize (U t (or_introl eq_refl)). congruence.
      + subst l. pose proof (do_none T s m G Rm C Hl) as X. rewrite B in X. destruct (X m1 St).
      + subst l. pose proof (do_some T s nx t m m1 G Rm D B Hl St) as X. exists l'. split; [exact E|].
        apply (minimize_sound net P0 R Q T l' m1 G (I l' E)). intros i Ii. apply X, J, Ii.
  Qed.
End Run.
