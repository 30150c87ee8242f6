(** The search on compiled nets: from [SearchProofs.try_reach_ok] to statements about
    runs of the net. *)
From Verif Require Import Base BaseLemmas NetSpec NetModel NetProofs EncoderModel StoreModel StoreSpec StoreProofs
  SearchModel SearchSpec SearchProofs QueueModel QueueProofs.
From Coq Require Import Permutation.
Set Implicit Arguments.

Arguments N.pow : simpl never.

(** ** Runs *)
Lemma run_app : forall net w1 m0 m1 w2 m2, run net m0 w1 m1 -> run net m1 w2 m2 -> run net m0 (w1 ++ w2) m2.
Proof. induction w1 as [|t w1 IH]; intros m0 m1 w2 m2 H1 H2; inversion H1; subst; simpl; [exact H2|]. econstructor; eauto. Qed.
Lemma run_snoc : forall net w m0 m t m', run net m0 w m -> step net m t m' -> run net m0 (w ++ [t]) m'.
Proof. intros. eapply run_app; [eassumption|]. econstructor; [eassumption|constructor]. Qed.
Lemma run_snoc_inv : forall net w m0 t m', run net m0 (w ++ [t]) m' -> exists m, run net m0 w m /\ step net m t m'.
Proof.
  induction w as [|u w IH]; intros m0 t m' H; inversion H; subst; simpl.
  - match goal with H : run _ _ [] _ |- _ => inversion H; subst end. exists m0. split; [constructor|assumption].
  - match goal with H : run _ _ (w ++ [t]) _ |- _ => destruct (IH _ _ _ H) as (m & H1 & H2) end.
    exists m. split; [econstructor; eauto|exact H2].
Qed.
Lemma step_det : forall net m t m1 m2, step net m t m1 -> step net m t m2 -> m1 = m2.
Proof. intros net m t m1 m2 (a & Ha & F1) (b & Hb & F2). assert (a = b) by congruence. subst b. eapply fires_det; eauto. Qed.
Lemma run_det : forall net w m0 m1 m2, run net m0 w m1 -> run net m0 w m2 -> m1 = m2.
Proof.
  induction w as [|t w IH]; intros m0 m1 m2 H1 H2; inversion H1; inversion H2; subst; [reflexivity|].
  match goal with A : step net m0 t ?x, B : step net m0 t ?y |- _ => assert (x = y) by (eapply step_det; eauto); subst end.
  eauto.
Qed.

Lemma kreach_0 : forall net m0 m, kreach net 0 m0 m <-> reachable net m0 m.
Proof.
  intros net m0 m. split; intros (w & H).
  - exists w. apply H.
  - exists w. split; [exact H|]. reflexivity.
Qed.

Lemma krun_nil : forall net k m0, over_bound k m0 = false -> krun net k m0 [] m0.
Proof.
  intros net k m0 H. split; [constructor|]. intros w1 w2 m1 E R. destruct w1; [|discriminate]. inversion R; subst. exact H.
Qed.
Lemma krun_snoc : forall net k m0 w m t m', krun net k m0 w m -> step net m t m' -> over_bound k m' = false ->
  krun net k m0 (w ++ [t]) m'.
Proof.
  intros net k m0 w m t m' (R & H) S Ho. assert (R' := run_snoc R S). split; [exact R'|].
  intros w1 w2 m1 E R1. destruct w2 as [|y w2] using rev_ind.
  - rewrite app_nil_r in E. subst w1. rewrite (run_det R1 R'). exact Ho.
  - clear IHw2. rewrite app_assoc in E. apply app_inj_tail in E. destruct E as (E & _). eapply H; eauto.
Qed.
Lemma krun_snoc_inv : forall net k m0 w t m', krun net k m0 (w ++ [t]) m' ->
  exists m, krun net k m0 w m /\ step net m t m' /\ over_bound k m' = false.
Proof.
  intros net k m0 w t m' (R & H). destruct (run_snoc_inv _ _ R) as (m & R1 & S). exists m. split; [|split; [exact S|]].
  - split; [exact R1|]. intros w1 w2 m1 E R2. eapply (H w1 (w2 ++ [t])); [|exact R2]. rewrite E, <- app_assoc. reflexivity.
  - eapply (H (w ++ [t]) []); [rewrite app_nil_r; reflexivity|exact R].
Qed.

(** ** The generator as a stream *)
Fixpoint fire_stream (net : cnet) (m : list N) (l : list nat) : list (nat * list N) * res unit :=
  match l with
  | [] => ([], Ok tt)
  | t :: l' =>
    match fire net m t with
    | Ok m' => let r := fire_stream net m l' in ((t, m') :: fst r, snd r)
    | Throw => ([], Throw) | UB => ([], UB) | NoFuel => ([], NoFuel)
    end
  end.

Lemma gen_stream_ok : forall net m, layout net -> length m = cn_places net ->
  forall fuel g, gen_ok net m g -> cn_ntrans net - cursor net g < fuel -> cursor net g <= cn_ntrans net ->
  gen_stream fuel net m g =
  fire_stream net m (filter (fun i => enabledb (net_trans net i) m) (seq (cursor net g) (cn_ntrans net - cursor net g))).
Proof.
  intros net m L Hm. induction fuel as [|f IH]; intros g Hg Hf Hc; [lia|].
  cbn [gen_stream]. unfold gen_next. destruct g as [p tc]; cbn [g_p g_t].
  assert (Hp : p + (cn_places net - p) = cn_places net) by (destruct Hg as (H & _); cbn in H; lia).
  pose proof (@next_place_ok net L m Hm (cn_places net - p) p tc Hp Hg) as H.
  rewrite (@filter_find net m Hm). unfold first_from in H.
  destruct (find _ _) as [t|] eqn:Hfd.
  - destruct H as (g' & Hg' & Hcur & ->).
    apply (@find_seq_some net m Hm) in Hfd. destruct Hfd as (Hr & _).
    cbn [fire_stream]. destruct (fire net m t) as [m'| | |]; cbn [bind fst snd]; try reflexivity.
    rewrite (IH g' Hg'); [|lia|lia].
    rewrite Hcur. replace (cursor net {| g_p := p; g_t := tc |} +
        (cn_ntrans net - cursor net {| g_p := p; g_t := tc |}) - S t) with (cn_ntrans net - S t) by lia.
    reflexivity.
  - destruct H as (g' & ->). reflexivity.
Qed.

Lemma fire_stream_ok : forall net m, layout net -> length m = cn_places net -> fits32 m ->
  forall l, (forall t, In t l -> t < cn_ntrans net /\ enabled (net_trans net t) m) ->
  (forall t m', In (t, m') (fst (fire_stream net m l)) -> In t l /\ fires (net_trans net t) m m' /\ ~ overflows (net_trans net t) m) /\
  ((snd (fire_stream net m l) = Ok tt /\ map fst (fst (fire_stream net m l)) = l) \/
   (snd (fire_stream net m l) = Throw /\ exists t, In t l /\ overflows (net_trans net t) m)).
Proof.
  intros net m L Hm Hf. induction l as [|t l IH]; intros Hl; cbn [fire_stream].
  - split; [intros t m' []|]. left; auto.
  - destruct (Hl t (or_introl eq_refl)) as (Ht & Hen).
    destruct (fire_ok L Hm Hf Ht Hen) as [(Hno & m' & -> & Hfi)|(Hov & ->)]; cbn [fst snd].
    + destruct IH as (H1 & H2); [intros u Hu; apply Hl; right; exact Hu|]. split.
      * intros u mu [E|E]; [injection E as <- <-; split; [left; reflexivity|auto]|].
        destruct (H1 _ _ E) as (? & ? & ?). split; [right; assumption|auto].
      * destruct H2 as [(H2 & H3)|(H2 & u & H3 & H4)]; [left; split; [exact H2|simpl; congruence]|].
        right. split; [exact H2|]. exists u. split; [right; exact H3|exact H4].
    + split; [intros u mu []|]. right. split; [reflexivity|]. exists t. split; [left; reflexivity|exact Hov].
Qed.

(** What the generator delivers: only steps; all of them unless it throws. *)
Lemma net_stream_ok : forall net m, layout net -> length m = cn_places net -> fits32 m ->
  (forall t m', In (t, m') (fst (net_stream net m)) -> step (to_pnet net) m t m' /\ length m' = cn_places net /\ fits32 m') /\
  ((snd (net_stream net m) = Ok tt /\ forall t m', step (to_pnet net) m t m' -> In (t, m') (fst (net_stream net m))) \/
   (snd (net_stream net m) = Throw /\ exists t tr, nth_error (pn_trans (to_pnet net)) t = Some tr /\ enabled tr m /\ overflows tr m)).
Proof.
  intros net m L Hm Hf. unfold net_stream. rewrite gen_stream_ok; auto.
  2:{ split; cbn; [lia|exact I]. }
  2:{ unfold cursor, gen_prepare; cbn [g_t g_p]. rewrite gptr_0 by exact L. lia. }
  2:{ unfold cursor, gen_prepare; cbn [g_t g_p]. rewrite gptr_0 by exact L. lia. }
  unfold cursor, gen_prepare; cbn [g_t g_p]. rewrite gptr_0, Nat.sub_0_r by exact L.
  set (l := filter _ _).
  assert (Hl : forall t, In t l <-> t < cn_ntrans net /\ enabled (net_trans net t) m).
  { intros t. unfold l. rewrite filter_In, in_seq, enabledb_spec. intuition lia. }
  destruct (@fire_stream_ok net m L Hm Hf l) as (H1 & H2); [intros t Ht; apply Hl; exact Ht|].
  split.
  - intros t m' Hi. destruct (H1 _ _ Hi) as (Ht & Hfi & Hno). apply Hl in Ht. destruct Ht as (Ht & Hen).
    split; [exists (net_trans net t); split; [apply net_trans_in; exact Ht|exact Hfi]|].
    destruct Hfi as (_ & Hlen & Htok). split; [lia|]. intros p.
    destruct (Nat.lt_ge_cases p (length m)) as [Hp|Hp].
    2:{ unfold tokens. rewrite nth_overflow by lia. lia. }
    destruct (Htok p Hp) as (Hle & ->). assert (Hfp := Hf p).
    destruct (wf_net_trans L Ht) as (_ & Hpost & _ & Hnd).
    destruct (in_dec Nat.eq_dec p (map arc_place (tr_post (net_trans net t)))) as [Hi2|Hi2].
    + apply in_map_iff in Hi2. destruct Hi2 as (a & <- & Ha).
      assert (Hw : weight_at (tr_post (net_trans net t)) (arc_place a) = arc_weight a).
      { clear - Ha Hnd Hpost. induction (tr_post (net_trans net t)) as [|b l IH]; [contradiction|].
        rewrite weight_at_cons. simpl in Hnd. inversion Hnd as [|? ? Hn1 Hn2]; subst.
        destruct Ha as [->|Ha].
        - rewrite Nat.eqb_refl, (proj2 (Hpost a (or_introl eq_refl))), weight_at_notin by exact Hn1. simpl. lia.
        - destruct (Nat.eqb_spec (arc_place b) (arc_place a)) as [E|_].
          + exfalso. apply Hn1. rewrite E. apply in_map. exact Ha.
          + cbn [andb]. rewrite IH; [lia|intros; apply Hpost; right; assumption|exact Hn2|exact Ha]. }
      rewrite Hw. destruct (N.lt_ge_cases (tokens m (arc_place a) - weight_at (tr_pre (net_trans net t)) (arc_place a) + arc_weight a) (2 ^ 32 - 1)) as [Hlt|Hge]; [lia|].
      exfalso. apply Hno. exists a. auto.
    + rewrite (weight_at_notin _ _ Hi2). lia.
  - destruct H2 as [(H2 & H3)|(H2 & t & H3 & H4)].
    + left. split; [exact H2|]. intros t m' (tr & Hn & Hfi). apply net_trans_inv in Hn. destruct Hn as (Ht & ->).
      assert (Hin : In t l) by (apply Hl; split; [exact Ht|exact (proj1 Hfi)]).
      rewrite <- H3 in Hin. apply in_map_iff in Hin. destruct Hin as ((t1 & m1) & E & Hi1). simpl in E; subst t1.
      destruct (H1 _ _ Hi1) as (_ & Hf1 & _). rewrite (fires_det Hfi Hf1). exact Hi1.
    + right. split; [exact H2|]. apply Hl in H3. destruct H3 as (Ht & Hen). exists t, (net_trans net t).
      split; [apply net_trans_in; exact Ht|auto].
Qed.

Lemma mark_ok_fits : forall net m, mark_ok (cn_places net) m <-> length m = cn_places net /\ fits32 m.
Proof.
  intros net m. unfold mark_ok, fits32. split.
  - intros (H1 & H2). split; [exact H1|]. intros p. unfold tokens.
    destruct (Nat.lt_ge_cases p (length m)); [apply H2, nth_In; assumption|rewrite nth_overflow by assumption; lia].
  - intros (H1 & H2). split; [exact H1|]. intros v Hv. apply (In_nth _ _ 0%N) in Hv. destruct Hv as (p & _ & <-). apply H2.
Qed.

(** Finitely many 32-bit markings. *)
Lemma vectors_finite : forall (B : N) places, exists L : list marking,
  forall m, length m = places -> (forall v, In v m -> v < B)%N -> In m L.
Proof.
  intros B. induction places as [|n (L & HL)].
  - exists [[]]. intros m Hl _. destruct m; [left; reflexivity|discriminate].
  - exists (flat_map (fun v => map (cons (N.of_nat v)) L) (seq 0 (N.to_nat B))).
    intros m Hl Hv. destruct m as [|v m]; [discriminate|].
    apply in_flat_map. exists (N.to_nat v). split.
    + apply in_seq. assert (v < B)%N by (apply Hv; left; reflexivity). lia.
    + rewrite N2Nat.id. apply in_map. apply HL; [simpl in Hl; lia|]. intros u Hu. apply Hv. right; exact Hu.
Qed.
Lemma marks_finite : forall places, exists L : list marking, forall m, mark_ok places m -> In m L.
Proof.
  intros places. destruct (vectors_finite (2 ^ 32) places) as (L & HL). exists L. intros m (H1 & H2). apply HL; assumption.
Qed.

Section OnNet.
  Variable net : cnet.
  Variable k : N.
  Hypothesis L : layout net.
  Hypothesis Hplaces : (N.of_nat (cn_places net) < 2 ^ 32)%N.
  Hypothesis Hinit : mark_ok (cn_places net) (cn_init net).

  Notation pn := (to_pnet net).
  Notation init := (cn_init net).
  Notation ns := (net_stream net).

  Lemma ns_mark_ok : forall m t m', mark_ok (cn_places net) m -> In (t, m') (fst (ns m)) -> mark_ok (cn_places net) m'.
  Proof.
    intros m t m' Hm Hi. apply mark_ok_fits in Hm. destruct Hm as (H1 & H2).
    destruct (net_stream_ok L H1 H2) as (H & _). apply mark_ok_fits. apply (H _ _ Hi).
  Qed.

  Lemma swalk_ok : forall w m, swalk ns k init w m -> mark_ok (cn_places net) m /\ krun pn k init w m.
  Proof.
    induction 1 as [Ho|w m t m' Hw (IH1 & IH2) Hi Ho].
    - split; [exact Hinit|apply krun_nil; exact Ho].
    - split; [eapply ns_mark_ok; eauto|]. eapply krun_snoc; [exact IH2| |exact Ho].
      apply mark_ok_fits in IH1. destruct IH1 as (A1 & A2). apply (net_stream_ok L A1 A2). exact Hi.
  Qed.

  Lemma sreach_kreach : forall m, sreach ns k init m -> kreach pn k init m.
  Proof. intros m (w & Hw). exists w. apply swalk_ok. exact Hw. Qed.

  Lemma kreach_sreach : (forall m, sreach ns k init m -> snd (ns m) = Ok tt) ->
    forall m, kreach pn k init m -> sreach ns k init m.
  Proof.
    intros Hend m (w & Hw). revert m Hw. induction w as [|t w IH] using rev_ind; intros m Hw.
    - destruct Hw as (R & H). inversion R; subst. exists []. constructor. apply (H [] [] _ eq_refl). constructor.
    - apply krun_snoc_inv in Hw. destruct Hw as (m1 & Hw & Hs & Ho). destruct (IH m1 Hw) as (v & Hv).
      destruct (swalk_ok Hv) as (A & _). apply mark_ok_fits in A. destruct A as (A1 & A2).
      destruct (net_stream_ok L A1 A2) as (_ & [(_ & H)|(H & _)]).
      + exists (v ++ [t]). econstructor; [exact Hv|apply H; exact Hs|exact Ho].
      + rewrite (Hend m1) in H by (exists v; exact Hv). discriminate.
  Qed.

  Lemma ns_end : forall m, mark_ok (cn_places net) m -> snd (ns m) <> UB /\ snd (ns m) <> NoFuel.
  Proof.
    intros m Hm. apply mark_ok_fits in Hm. destruct Hm as (A1 & A2).
    destruct (net_stream_ok L A1 A2) as (_ & [(-> & _)|(-> & _)]); split; discriminate.
  Qed.

  Definition strategy_ok (st : strategy) : Prop :=
    match st with BFS f | RDFS f => shuffles f | _ => True end.

  Lemma strategy_bag : forall st, strategy_ok st ->
    exists good content, is_bag (2 ^ 32) (is_rpfs st = true) (queue_of st) good content.
  Proof.
    assert (W : forall B B' (P P' : Prop) Q g c, (B' <= B)%N -> (P -> P') -> is_bag B P Q g c -> is_bag B' P' Q g c).
    { intros B B' P P' Q g c HB HP [H1 H2 H3]. constructor; [exact H1| |].
      - intros q id d t Hg Hid. destruct (H2 q id d t Hg) as [H|(H & HC)]; [lia|left; exact H|right; auto].
      - intros q Hg. destruct (H3 q Hg) as [H|[H|(H & HC)]]; auto. }
    intros [f| |f| |coin pot0 d0] H; cbn [queue_of is_rpfs].
    - do 2 eexists. eapply W; [| |exact (bfs_bag f H)]; [lia|tauto].
    - do 2 eexists. eapply W; [| |exact dfs_bag]; [lia|tauto].
    - do 2 eexists. eapply W; [| |exact (rdfs_bag f H)]; [lia|tauto].
    - do 2 eexists. eapply W; [| |exact heur_bag]; [lia|tauto].
    - do 2 eexists. eapply W; [| |exact (pot_bag coin pot0 d0)]; [lia|tauto].
  Qed.

  Section Run.
    Variable st : strategy.
    Variable qs : list query.
    Variable dist : nat -> list N -> N.
    Variable handle : nat -> rslt -> rslt * bool.
    Variable use : bool.
    Variable rs0 : list rslt.
    Variable qst0 : list N.
    Variable heur : nat.
    Hypothesis Hst : strategy_ok st.
    Hypothesis Hhandle : forall i, fst (handle i Satisfied) <> Unknown.
    Hypothesis Hrs0 : length rs0 = length qs.
    Hypothesis Hqst0 : length qst0 = length qs.
    Hypothesis Hheur : heur < length qs.
    Hypothesis Hspace : space_at_most pn k init (2 ^ 32).

    Definition search (fuel : nat) : res (sst (queue_of st) * bool) :=
      try_reach (queue_of st) qs dist handle ns use fuel (cn_places net) k init rs0 qst0 heur.

    Lemma search_ok : forall fuel,
      match search fuel with
      | Ok (s, b) =>
          (forall e, In e (s_log s) -> verdict_ok qs ns use (cn_places net) k init qst0 e) /\
          res_ok qs handle rs0 s /\
          (b = true -> stopped qs handle s) /\
          (b = false -> forall j, j < length qs -> fst (handle j NotSatisfied) <> Unknown -> nth j (s_res s) Unknown <> Unknown)
      | Throw => (exists m t tr, kreach pn k init m /\ nth_error (pn_trans pn) t = Some tr /\ enabled tr m /\ overflows tr m) \/ 2047 < cn_places net
      | UB => is_rpfs st = true
      | NoFuel => exists l, NoDup l /\ fuel <= length l /\ forall m, In m l -> mark_ok (cn_places net) m /\ sreach ns k init m
      end.
    Proof.
      intros fuel. destruct (strategy_bag st Hst) as (good & content & HB).
      assert (Hsp : forall l, NoDup l -> (forall m, In m l -> sreach ns k init m) -> (N.of_nat (length l) <= 2 ^ 32)%N).
      { intros l Hl Hm. apply Hspace; [exact Hl|]. intros m Hi. apply sreach_kreach. apply Hm. exact Hi. }
      assert (T := @try_reach_ok (queue_of st) content _ _ good HB qs dist handle ns use (cn_places net) k init rs0 qst0
        Hplaces Hinit ns_mark_ok Hhandle Hrs0 Hqst0 Hsp fuel heur ns_end Hheur).
      unfold search. destruct (try_reach _ _ _ _ _ _ _ _ _ _ _ _ _) as [[s b]| | |]; auto.
      destruct T as [(m & Hm & He)|T]; [left|right; exact T].
      exists m. assert (Hk := sreach_kreach Hm). destruct Hm as (w & Hw). destruct (swalk_ok Hw) as (A & _).
      apply mark_ok_fits in A. destruct A as (A1 & A2). destruct (net_stream_ok L A1 A2) as (_ & [(H & _)|(_ & t & tr & H1 & H2 & H3)]); [congruence|].
      exists t, tr. auto.
    Qed.

    (** With enough steps the search ends. *)
    Lemma search_terminates : exists n, forall fuel, n <= fuel -> search fuel <> NoFuel.
    Proof.
      destruct (marks_finite (cn_places net)) as (U & HU). exists (S (length U)). intros fuel Hf E.
      assert (H := search_ok fuel). rewrite E in H. destruct H as (l & H1 & H2 & H3).
      assert (length l <= length U) by (apply NoDup_incl_length; [exact H1|]; intros m Hm; apply HU; apply (H3 m Hm)). lia.
    Qed.

    Lemma verdict_negative : forall e, verdict_ok qs ns use (cn_places net) k init qst0 e -> ev_result e = NotSatisfied ->
      exists q l, nth_error qs (ev_query e) = Some q /\ NoDup l /\
        (forall x, In x l <-> kreach pn k init x) /\ (forall x, In x l -> mark_ok (cn_places net) x) /\
        (use = true -> nohit q (nth (ev_query e) qst0 0%N) l /\ ev_value e = runq q (nth (ev_query e) qst0 0%N) l) /\
        (over_bound k init = false -> ev_explored e = length l /\ ev_bounds e = map (peak l) (seq 0 (cn_places net)) /\
           (k = 0%N -> ev_maxtok e = maxtot l)).
    Proof.
      intros e H Hr. unfold verdict_ok in H. rewrite Hr in H.
      destruct H as (q & l & H1 & H2 & H3 & H4 & H5 & H6). exists q, l.
      split; [exact H1|]. split; [exact H2|]. split; [|split; [|auto]].
      - intros x. rewrite H3. split; [apply sreach_kreach|]. apply kreach_sreach.
        intros m Hm. apply H4, H3. exact Hm.
      - intros x Hx. apply H3 in Hx. destruct Hx as (w & Hw). destruct (swalk_ok Hw); auto.
    Qed.

    Lemma verdict_positive : forall e, verdict_ok qs ns use (cn_places net) k init qst0 e -> ev_result e = Satisfied ->
      exists q pre m w, nth_error qs (ev_query e) = Some q /\
        (forall x, In x pre -> kreach pn k init x) /\ nohit q (nth (ev_query e) qst0 0%N) pre /\
        q (runq q (nth (ev_query e) qst0 0%N) pre) m = (ev_value e, true) /\
        ev_trace e = Ok w /\ krun pn k init w m /\ mark_ok (cn_places net) m.
    Proof.
      intros e H Hr. unfold verdict_ok in H. rewrite Hr in H.
      destruct H as (q & pre & m & w & H1 & H2 & H3 & H4 & H5 & H6). exists q, pre, m, w.
      split; [exact H1|]. split; [intros x Hx; apply sreach_kreach, H2, Hx|]. split; [exact H3|].
      split; [exact H4|]. split; [exact H5|]. destruct (swalk_ok H6); auto.
    Qed.
  End Run.
End OnNet.

(** ** Pure queries *)
Lemma runq_pure : forall f st l, runq (pure_query f) st l = st.
Proof. intros f st l. revert st. induction l as [|m l IH]; intros st; [reflexivity|]. apply IH. Qed.
Lemma nohit_pure : forall f st l, nohit (pure_query f) st l -> forall m, In m l -> f m = false.
Proof.
  intros f st l H m Hm. apply in_split in Hm. destruct Hm as (l1 & l2 & ->).
  assert (X := H l1 m l2 eq_refl). exact X.
Qed.

(** ** Bounds queries *)
Definition sum_places (ps : list nat) (m : marking) : N := sumN (map (tokens m) ps).
Lemma runq_bounds : forall ps lim l st, runq (bounds_query ps lim) st l =
  N.max st (fold_right (fun m x => N.max (sum_places ps m) x) 0%N l).
Proof.
  intros ps lim. induction l as [|m l IH]; intros st; [simpl; lia|].
  change (runq (bounds_query ps lim) st (m :: l)) with (runq (bounds_query ps lim) (N.max st (sum_places ps m)) l).
  rewrite IH. cbn [fold_right]. lia.
Qed.
Lemma fold_max_le : forall (f : marking -> N) l m, In m l -> (f m <= fold_right (fun m x => N.max (f m) x) 0 l)%N.
Proof. intros f. induction l as [|x l IH]; intros m H; [contradiction|]. cbn [fold_right]. destruct H as [->|H]; [lia|]. specialize (IH m H). lia. Qed.
Lemma fold_max_ex : forall (f : marking -> N) l, l <> [] -> exists m, In m l /\ f m = fold_right (fun m x => N.max (f m) x) 0%N l.
Proof.
  intros f. induction l as [|x l IH]; intros H; [congruence|]. cbn [fold_right].
  destruct l as [|y l].
  - exists x. split; [left; reflexivity|]. cbn [fold_right]. lia.
  - destruct IH as (m & Hm & E); [discriminate|].
    destruct (N.max_spec (f x) (fold_right (fun m x => N.max (f m) x) 0%N (y :: l))) as [(_ & ->)|(_ & ->)].
    + exists m. split; [right; exact Hm|exact E].
    + exists x. split; [left; reflexivity|reflexivity].
Qed.
Lemma peak_fold : forall l p, peak l p = fold_right (fun m x => N.max (tokens m p) x) 0%N l.
Proof. reflexivity. Qed.


(** A net the search can be started on: as built (C03), fewer than 2^32 places, 32-bit
    initial counts, and at most 2^32 markings reachable within the bound. *)
Definition searchable (net : cnet) (k : N) : Prop :=
  layout net /\ (N.of_nat (cn_places net) < 2 ^ 32)%N /\ mark_ok (cn_places net) (cn_init net) /\
  space_at_most (to_pnet net) k (cn_init net) (2 ^ 32).

Section Final.
  Variable net : cnet.
  Variable k : N.
  Variable st : strategy.
  Variable dist : nat -> list N -> N.
  Variable rs0 : list rslt.
  Variable heur : nat.
  Hypothesis HS : searchable net k.
  Hypothesis Hst : strategy_ok st.
  Notation pn := (to_pnet net).
  Notation init := (cn_init net).

  Lemma positive_answer : forall fs handle use qst0 fuel s b e,
    (forall i, fst (handle i Satisfied) <> Unknown) ->
    length rs0 = length fs -> length qst0 = length fs -> heur < length fs ->
    search net k st (map pure_query fs) dist handle use rs0 qst0 heur fuel = Ok (s, b) ->
    In e (s_log s) -> ev_result e = Satisfied ->
    exists f m w, nth_error fs (ev_query e) = Some f /\ f m = true /\
      ev_trace e = Ok w /\ krun pn k init w m /\ mark_ok (cn_places net) m.
  Proof.
    intros fs handle use qst0 fuel s b e Hh H1 H2 H3 E He Hr. destruct HS as (L & Hp & Hi & Hsp).
    assert (X := @search_ok net k L Hp Hi st (map pure_query fs) dist handle use rs0 qst0 heur Hst Hh).
    rewrite map_length in X. specialize (X H1 H2 H3 Hsp fuel). rewrite E in X. destruct X as (X & _).
    destruct (@verdict_positive net k L Hi (map pure_query fs) use qst0 e (X e He) Hr) as (q & pre & m & w & A1 & _ & _ & A2 & A3 & A4 & A5).
    rewrite nth_error_map in A1. destruct (nth_error fs (ev_query e)) as [f|]; [|discriminate]. injection A1 as <-.
    exists f, m, w. split; [reflexivity|]. split; [|auto]. unfold pure_query in A2. congruence.
  Qed.

  Lemma negative_answer : forall fs handle qst0 fuel s b e,
    (forall i, fst (handle i Satisfied) <> Unknown) ->
    length rs0 = length fs -> length qst0 = length fs -> heur < length fs ->
    search net k st (map pure_query fs) dist handle true rs0 qst0 heur fuel = Ok (s, b) ->
    In e (s_log s) -> ev_result e <> Satisfied ->
    ev_result e = NotSatisfied /\
    exists f, nth_error fs (ev_query e) = Some f /\
      forall m, kreach pn k init m -> f m = false /\ mark_ok (cn_places net) m.
  Proof.
    intros fs handle qst0 fuel s b e Hh H1 H2 H3 E He Hr. destruct HS as (L & Hp & Hi & Hsp).
    assert (X := @search_ok net k L Hp Hi st (map pure_query fs) dist handle true rs0 qst0 heur Hst Hh).
    rewrite map_length in X. specialize (X H1 H2 H3 Hsp fuel). rewrite E in X. destruct X as (X & _).
    assert (Y : ev_result e = NotSatisfied).
    { specialize (X e He). unfold verdict_ok in X. destruct (ev_result e); try contradiction; congruence. }
    split; [exact Y|].
    destruct (@verdict_negative net k L Hi (map pure_query fs) true qst0 e (X e He) Y) as (q & l & A1 & _ & A2 & A5 & A3 & _).
    rewrite nth_error_map in A1. destruct (nth_error fs (ev_query e)) as [f|]; [|discriminate]. injection A1 as <-.
    exists f. split; [reflexivity|]. intros m Hm. destruct (A3 eq_refl) as (A4 & _). apply A2 in Hm. split; [|apply A5; exact Hm]. eapply nohit_pure; [exact A4|]. exact Hm.
  Qed.

  (** With ResultPrinter as handler every query gets the right answer. *)
  Lemma answers_exact : forall fs (inv : nat -> bool) qst0 fuel s b,
    length qst0 = length fs -> heur < length fs ->
    rs0 = map (fun _ => Unknown) fs ->
    search net k st (map pure_query fs) dist (fun i => printer_handle false false (inv i) None) true rs0 qst0 heur fuel = Ok (s, b) ->
    forall i f, nth_error fs i = Some f ->
    (exists m, kreach pn k init m /\ f m = true /\ mark_ok (cn_places net) m) /\ nth i (s_res s) Unknown = (if inv i then NotSatisfied else Satisfied) \/
    (forall m, kreach pn k init m -> f m = false /\ mark_ok (cn_places net) m) /\ nth i (s_res s) Unknown = (if inv i then Satisfied else NotSatisfied).
  Proof.
    intros fs inv qst0 fuel s b H2 H3 Hrs E i f Hf.
    set (handle := fun i => printer_handle false false (inv i) None) in *.
    assert (H1 : length rs0 = length fs) by (rewrite Hrs, map_length; reflexivity).
    assert (Hh : forall i, fst (handle i Satisfied) <> Unknown) by (intros j; cbn; destruct (inv j); discriminate).
    assert (Hil := nth_error_lt _ _ Hf).
    assert (Hr0 : nth i rs0 Unknown = Unknown).
    { rewrite Hrs. clear. revert i. induction fs as [|x fs IH]; intros [|i]; simpl; auto. }
    assert (HS' := HS). destruct HS' as (L & Hp & Hi & Hsp).
    assert (X := @search_ok net k L Hp Hi st (map pure_query fs) dist handle true rs0 qst0 heur Hst Hh).
    rewrite map_length in X. specialize (X H1 H2 H3 Hsp fuel). rewrite E in X. destruct X as (X1 & X2 & X3 & X4).
    destruct X2 as (R1 & R2 & R3).
    assert (Hnot : forall j r, snd (handle j r) = false).
    { intros j r. destruct r; cbn; destruct (inv j); reflexivity. }
    assert (Hdone : forall e, In e (s_log s) -> ev_query e = i -> fst (handle i (ev_result e)) = nth i (s_res s) Unknown ->
       (exists m, kreach pn k init m /\ f m = true /\ mark_ok (cn_places net) m) /\ nth i (s_res s) Unknown = (if inv i then NotSatisfied else Satisfied) \/
       (forall m, kreach pn k init m -> f m = false /\ mark_ok (cn_places net) m) /\ nth i (s_res s) Unknown = (if inv i then Satisfied else NotSatisfied)).
    { intros e He Hq Hv. specialize (X1 e He).
      destruct (ev_result e) eqn:Er; try (unfold verdict_ok in X1; rewrite Er in X1; contradiction).
      - left. destruct (positive_answer _ _ _ _ _ _ Hh H1 H2 H3 E He Er) as (g & m & w & G1 & G2 & _ & G3 & G4).
        rewrite Hq, Hf in G1. injection G1 as <-. split; [exists m; split; [exists w; exact G3|split; [exact G2|exact G4]]|].
        rewrite <- Hv. cbn. destruct (inv i); reflexivity.
      - right. destruct (negative_answer _ _ _ _ _ Hh H1 H2 H3 E He) as (_ & g & G1 & G2); [congruence|].
        rewrite Hq, Hf in G1. injection G1 as <-. split; [exact G2|].
        rewrite <- Hv. cbn. destruct (inv i); reflexivity. }
    assert (Hkn : nth i (s_res s) Unknown <> Unknown).
    { destruct b.
      - destruct (X3 eq_refl) as [(j & Hs)|H]; [rewrite Hnot in Hs; discriminate|]. apply H. rewrite map_length. exact Hil.
      - apply X4; [reflexivity|exact Hil|]. cbn. destruct (inv i); discriminate. }
    destruct (R3 i) as [Hz|(e & He & Hq & Hv)]; [congruence|]. eapply Hdone; eauto.
  Qed.

  (** Bounds queries: each reported value is the maximum, also when the search stops at
      a known upper limit. *)
  Lemma bounds_answer : forall bs handle fuel s b e,
    (forall i, fst (handle i Satisfied) <> Unknown) ->
    length rs0 = length bs -> heur < length bs -> over_bound k init = false ->
    (forall ps x, In (ps, Some x) bs -> forall m, kreach pn k init m -> (sum_places ps m <= x)%N) ->
    search net k st (map (fun q => bounds_query (fst q) (snd q)) bs) dist handle true rs0
      (map (fun _ => 0%N) bs) heur fuel = Ok (s, b) ->
    In e (s_log s) ->
    exists ps lim, nth_error bs (ev_query e) = Some (ps, lim) /\ is_max (kreach pn k init) (sum_places ps) (ev_value e).
  Proof.
    intros bs handle fuel s b e Hh H1 H3 Hob Hlim E He. destruct HS as (L & Hp & Hi & Hsp).
    assert (X := @search_ok net k L Hp Hi st (map (fun q => bounds_query (fst q) (snd q)) bs) dist handle true rs0
      (map (fun _ => 0%N) bs) heur Hst Hh).
    rewrite !map_length in X. specialize (X H1 eq_refl H3 Hsp fuel). rewrite E in X. destruct X as (X & _).
    specialize (X e He).
    assert (Hz : forall i, nth i (map (fun _ : list nat * option N => 0%N) bs) 0%N = 0%N).
    { clear. induction bs as [|x bs IH]; intros [|i]; simpl; auto. }
    destruct (ev_result e) eqn:Er; try (unfold verdict_ok in X; rewrite Er in X; contradiction).
    - destruct (@verdict_positive net k L Hi _ true _ e X Er) as (q & pre & m & w & A1 & A2 & _ & A3 & _ & A4 & _).
      rewrite nth_error_map in A1. destruct (nth_error bs (ev_query e)) as [[ps lim]|] eqn:Eb; [|discriminate].
      injection A1 as <-. exists ps, lim. split; [reflexivity|].
      rewrite Hz, runq_bounds in A3. cbn [fst snd] in A3. unfold bounds_query in A3.
      set (v := N.max _ _) in A3.
      assert (Hv : v = fold_right (fun m x => N.max (sum_places ps m) x) 0%N (m :: pre)).
      { unfold v. cbn [fold_right]. change (sumN (map (fun p => nth p m 0%N) ps)) with (sum_places ps m). lia. }
      destruct lim as [x|]; [|congruence]. injection A3 as A3 A5. apply N.leb_le in A5. rewrite <- A3.
      assert (Hr : forall y, In y (m :: pre) -> kreach pn k init y) by (intros y [<-|Hy]; [exists w; exact A4|apply A2; exact Hy]).
      destruct (@fold_max_ex (sum_places ps) (m :: pre)) as (y & Hy & Hyv); [discriminate|].
      assert (Hx := Hlim ps x (nth_error_In _ _ Eb)).
      split.
      + exists y. split; [apply Hr; exact Hy|]. rewrite Hyv. symmetry. exact Hv.
      + intros z Hz2. specialize (Hx z Hz2). lia.
    - destruct (@verdict_negative net k L Hi _ true _ e X Er) as (q & l & A1 & _ & A2 & _ & A3 & A4).
      rewrite nth_error_map in A1. destruct (nth_error bs (ev_query e)) as [[ps lim]|] eqn:Eb; [|discriminate].
      injection A1 as <-. exists ps, lim. split; [reflexivity|].
      destruct (A3 eq_refl) as (_ & A5). rewrite Hz, runq_bounds in A5. cbn [fst snd] in A5. rewrite N.max_0_l in A5. rewrite A5.
      assert (Hne : l <> []).
      { intros ->. apply (proj2 (A2 init)). exists []. apply krun_nil. exact Hob. }
      destruct (fold_max_ex (sum_places ps) Hne) as (y & Hy & Hyv). split.
      + exists y. split; [apply A2; exact Hy|exact Hyv].
      + intros z Hz2. apply fold_max_le. apply A2. exact Hz2.
  Qed.

  (** Statistics of a full exploration (no queries checked). *)
  Lemma statistics_exact : forall fs handle qst0 fuel s b e,
    k = 0%N ->
    (forall i, fst (handle i Satisfied) <> Unknown) ->
    length rs0 = length fs -> length qst0 = length fs -> heur < length fs ->
    search net k st (map pure_query fs) dist handle false rs0 qst0 heur fuel = Ok (s, b) ->
    In e (s_log s) -> ev_result e = NotSatisfied ->
    exists l, NoDup l /\ (forall m, In m l <-> reachable pn init m) /\
      ev_explored e = length l /\
      is_max (reachable pn init) total32 (ev_maxtok e) /\
      length (ev_bounds e) = cn_places net /\
      forall p, p < cn_places net -> is_max (reachable pn init) (fun m => tokens m p) (nth p (ev_bounds e) 0%N).
  Proof.
    intros fs handle qst0 fuel s b e Hk Hh H1 H2 H3 E He Hr. destruct HS as (L & Hp & Hi & Hsp).
    assert (X := @search_ok net k L Hp Hi st (map pure_query fs) dist handle false rs0 qst0 heur Hst Hh).
    rewrite map_length in X. specialize (X H1 H2 H3 Hsp fuel). rewrite E in X. destruct X as (X & _).
    destruct (@verdict_negative net k L Hi _ false _ e (X e He) Hr) as (q & l & _ & A1 & A2 & _ & _ & A3).
    assert (A4 : forall m, In m l <-> reachable pn init m) by (intros m; rewrite A2, Hk; apply kreach_0).
    destruct A3 as (B1 & B2 & B3); [rewrite Hk; reflexivity|]. specialize (B3 Hk).
    assert (Hne : l <> []) by (intros ->; apply (proj2 (A4 init)); exists []; constructor).
    assert (M : forall f, is_max (reachable pn init) f (fold_right (fun m x => N.max (f m) x) 0%N l)).
    { intros f. split.
      - destruct (fold_max_ex f Hne) as (y & Hy & Hv). exists y. split; [apply A4; exact Hy|exact Hv].
      - intros m Hm. apply fold_max_le. apply A4. exact Hm. }
    exists l. split; [exact A1|]. split; [exact A4|]. split; [exact B1|]. split; [rewrite B3; apply M|].
    split; [rewrite B2, map_length, seq_length; reflexivity|].
    intros p Hpl. rewrite B2. rewrite (nth_indep _ 0%N (peak l 0)) by (rewrite map_length, seq_length; exact Hpl).
    rewrite map_nth, seq_nth by exact Hpl. apply M.
  Qed.

  (** Outcomes: no undefined behaviour except in the potency queue, an exception only for
      token overflow or too many places, and the search ends. *)
  Lemma outcomes : forall qs handle use qst0,
    (forall i, fst (handle i Satisfied) <> Unknown) ->
    length rs0 = length qs -> length qst0 = length qs -> heur < length qs ->
    exists n, forall fuel, n <= fuel ->
    match search net k st qs dist handle use rs0 qst0 heur fuel with
    | Ok (s, b) =>
      (forall i, nth i (s_res s) Unknown = nth i rs0 Unknown \/
         exists e, In e (s_log s) /\ ev_query e = i /\ nth i (s_res s) Unknown = fst (handle i (ev_result e))) /\
      ((forall i r, r <> Unknown -> fst (handle i r) <> Unknown /\ snd (handle i r) = false) ->
       forall i, i < length qs -> nth i (s_res s) Unknown <> Unknown)
    | Throw => (exists m t tr, kreach pn k init m /\ nth_error (pn_trans pn) t = Some tr /\ enabled tr m /\ overflows tr m) \/
               2047 < cn_places net
    | UB => is_rpfs st = true
    | NoFuel => False
    end.
  Proof.
    intros qs handle use qst0 Hh H1 H2 H3. destruct HS as (L & Hp & Hi & Hsp).
    destruct (@search_terminates net k L Hp Hi st qs dist handle use rs0 qst0 heur Hst Hh H1 H2 H3 Hsp) as (n & Hn).
    exists n. intros fuel Hf. specialize (Hn fuel Hf).
    assert (X := @search_ok net k L Hp Hi st qs dist handle use rs0 qst0 heur Hst Hh H1 H2 H3 Hsp fuel).
    destruct (search net k st qs dist handle use rs0 qst0 heur fuel) as [[s b]| | |]; auto.
    destruct X as (X1 & X2 & X3 & X4). split; [apply X2|].
    intros Hk i Hil. destruct b.
    - destruct (X3 eq_refl) as [(j & Hs)|H]; [|apply H; exact Hil].
      rewrite (proj2 (Hk j Satisfied ltac:(discriminate))) in Hs. discriminate.
    - apply X4; [reflexivity|exact Hil|]. apply (Hk i NotSatisfied). discriminate.
  Qed.
End Final.
