(** Proofs about trace replay. *)
From Verif Require Import Base BaseLemmas NetSpec NetModel NetProofs PqlRuns SearchMain QueryModel QueryProofs ReplaySpec ReplayModel.

(** * Names *)
Lemma find_from_some : forall l n i j, find_from l n i = Some j -> i <= j /\ nth_error l (j - i) = Some n.
Proof.
  induction l as [|x l IH]; intros n i j; cbn [find_from]; [discriminate|].
  destruct (find_from l n (S i)) as [k|] eqn:E.
  - intros H. injection H as <-. apply IH in E. destruct E as (E1 & E2). split; [lia|].
    replace (k - i) with (S (k - S i)) by lia. exact E2.
  - destruct (Nat.eqb_spec x n); [|discriminate]. intros H. injection H as <-. subst x. split; [lia|]. rewrite Nat.sub_diag. reflexivity.
Qed.
Lemma find_from_none : forall l n i, find_from l n i = None -> ~ In n l.
Proof.
  induction l as [|x l IH]; intros n i; cbn [find_from]; [intros _ []|].
  destruct (find_from l n (S i)) eqn:E; [discriminate|]. destruct (Nat.eqb_spec x n); [discriminate|].
  intros _ [H|H]; [congruence|]. exact (IH _ _ E H).
Qed.
Lemma find_name_some : forall l n j, find_name l n = Some j -> nth_error l j = Some n.
Proof. intros l n j H. apply find_from_some in H. destruct H as (_ & H). rewrite Nat.sub_0_r in H. exact H. Qed.
Lemma find_name_in : forall l n, In n l -> exists j, find_name l n = Some j.
Proof. intros l n H. unfold find_name. destruct (find_from l n 0) eqn:E; [eauto|]. apply find_from_none in E. contradiction. Qed.
Lemma find_name_nth : forall l n j, NoDup l -> nth_error l j = Some n -> find_name l n = Some j.
Proof.
  intros l n j Hd H. destruct (find_name_in l n) as (k & E); [eapply nth_error_In; eauto|]. rewrite E. f_equal.
  apply find_name_some in E. apply (proj1 (NoDup_nth_error l) Hd); [apply nth_error_Some; congruence|congruence].
Qed.

Section Replay.
  Variable net : cnet.
  Variables pnames tnames : list nat.
  Variable dl : nat.
  Hypothesis L : layout net.
  Hypothesis Hpl : 0 < cn_places net.
  Hypothesis Hinit : length (cn_init net) = cn_places net.
  Hypothesis Hpn : NoDup pnames.
  Hypothesis Hpl2 : length pnames = cn_places net.
  Hypothesis Htn : NoDup tnames.
  Hypothesis Htl : length tnames = cn_ntrans net.
  Hypothesis Hw : forall t tr a, nth_error (pn_trans (to_pnet net)) t = Some tr -> In a (tr_pre tr) -> arc_inhib a = false ->
    (0 < arc_weight a)%N.

  (** * Entries *)
  Definition place_ix (n : nat) : nat := match find_name pnames n with Some j => j | None => 0 end.
  Definition ent (n : tnode) : list tentry :=
    match n with
    | TLoop => []
    | TTrans None _ => []
    | TTrans (Some id) ps => [mkEntry id (map place_ix ps)]
    | TDead ps => [mkEntry dl (map place_ix ps)]
    end.
  Definition ents (l : list tnode) : list tentry := flat_map ent l.
  Lemma parse_tokens_ok : forall l, (forall n, In n l -> In n pnames) -> parse_tokens pnames l = Ok (map place_ix l).
  Proof.
    induction l as [|n l IH]; intros H; [reflexivity|]. cbn [parse_tokens map]. unfold place_ix at 1.
    destruct (find_name_in pnames n) as (j & ->); [apply H; left; reflexivity|].
    rewrite IH by (intros x Hx; apply H; right; exact Hx). reflexivity.
  Qed.
  (** position of the last loop tag *)
  Fixpoint loop_at (l : list tnode) (i : nat) (lp : option nat) : option nat :=
    match l with
    | [] => lp
    | TLoop :: l => loop_at l i (Some i)
    | _ :: l => loop_at l (S i) lp
    end.
  Lemma parse_root_ok : forall ltl l acc lp, readable pnames l ->
    parse_root dl pnames ltl l acc lp =
      match loop_at l (length acc) lp with
      | None => if ltl then Throw else Ok (acc ++ ents l, None)
      | Some k => Ok (acc ++ ents l, Some k)
      end.
  Proof.
    intros ltl. induction l as [|n l IH]; intros acc lp H; cbn [parse_root loop_at ents flat_map].
    - rewrite app_nil_r. destruct lp; [reflexivity|]. destruct ltl; reflexivity.
    - assert (H' : readable pnames l) by (intros x Hx; apply H; right; exact Hx).
      assert (Hn := H n (or_introl eq_refl)). destruct n as [|[id|] ps|ps]; cbn [parse_transition bind ent app] in *.
      + rewrite IH by exact H'. reflexivity.
      + rewrite parse_tokens_ok by apply Hn. cbn [bind]. rewrite IH by exact H'. rewrite app_length. cbn [length].
        rewrite Nat.add_1_r, <- app_assoc. reflexivity.
      + destruct Hn as (Hn & _). congruence.
      + rewrite parse_tokens_ok by apply Hn. cbn [bind]. rewrite IH by exact H'. rewrite app_length. cbn [length].
        rewrite Nat.add_1_r, <- app_assoc. reflexivity.
  Qed.
  Lemma loop_at_none : forall l i lp, no_loop l -> loop_at l i lp = lp.
  Proof.
    induction l as [|n l IH]; intros i lp H; [reflexivity|]. assert (Hn := H n (or_introl eq_refl)).
    assert (H' : no_loop l) by (intros x Hx; apply H; right; exact Hx).
    destruct n as [| |]; [discriminate|cbn [loop_at]; apply IH; exact H'|cbn [loop_at]; apply IH; exact H'].
  Qed.
  Lemma loop_at_split : forall l1 l2 i lp, readable pnames l1 -> no_loop l2 ->
    loop_at (l1 ++ TLoop :: l2) i lp = Some (i + length (ents l1)).
  Proof.
    induction l1 as [|n l1 IH]; intros l2 i lp Hr H.
    - cbn [app loop_at ents flat_map length]. rewrite loop_at_none by exact H. rewrite Nat.add_0_r. reflexivity.
    - assert (Hr' : readable pnames l1) by (intros x Hx; apply Hr; right; exact Hx). assert (Hn := Hr n (or_introl eq_refl)).
      destruct n as [|[id|] ps|ps]; cbn [app loop_at ents flat_map ent length].
      + apply IH; assumption.
      + rewrite IH by assumption. fold (ents l1). f_equal. lia.
      + destruct Hn; congruence.
      + rewrite IH by assumption. fold (ents l1). f_equal. lia.
  Qed.

  (** * Steps of entries *)
  Definition estep (m : marking) (e : tentry) (m1 : marking) : Prop :=
    te_id e <> dl /\ exists t pre, nth_error tnames t = Some (te_id e) /\ t < cn_ntrans net /\ fires (net_trans net t) m m1 /\
      preset net t = Ok pre /\ (te_tokens e = [] \/ check_tokens (te_tokens e) pre = true).
  Inductive eplays : marking -> list tentry -> marking -> Prop :=
  | ep_nil : forall m, eplays m [] m
  | ep_cons : forall m e m1 l m2, estep m e m1 -> eplays m1 l m2 -> eplays m (e :: l) m2.
  Definition estop (m : marking) (es : list tentry) : Prop :=
    exists es1 d es2 m', es = es1 ++ d :: es2 /\ te_id d = dl /\ eplays m es1 m' /\ dead (to_pnet net) m'.

  Lemma estep_reach : forall m e m1, estep m e m1 -> reachable (to_pnet net) m m1.
  Proof.
    intros m e m1 (_ & t & pre & _ & Ht & F & _). exists [t]. econstructor; [|constructor]. exists (net_trans net t).
    split; [apply net_trans_in; exact Ht|exact F].
  Qed.
  Lemma reach_trans : forall a b c, reachable (to_pnet net) a b -> reachable (to_pnet net) b c -> reachable (to_pnet net) a c.
  Proof. intros a b c (w1 & H1) (w2 & H2). exists (w1 ++ w2). eapply run_app; eauto. Qed.
  Lemma eplays_reach : forall m es m', eplays m es m' -> reachable (to_pnet net) m m'.
  Proof.
    intros m es m' H. induction H; [exists []; constructor|]. eapply reach_trans; [eapply estep_reach; eauto|assumption].
  Qed.
  Lemma eplays_app : forall a b m m', eplays m (a ++ b) m' <-> exists m1, eplays m a m1 /\ eplays m1 b m'.
  Proof.
    induction a as [|e a IH]; intros b m m'; cbn [app].
    - split; [intros H; exists m; split; [constructor|exact H]|]. intros (m1 & H1 & H2). inversion H1; subst. exact H2.
    - split.
      + intros H. inversion H; subst. apply IH in H5. destruct H5 as (mx & H1 & H2). exists mx. split; [econstructor; eauto|exact H2].
      + intros (m1 & H1 & H2). inversion H1; subst. econstructor; [eassumption|]. apply IH. eauto.
  Qed.
  Lemma estep_det : forall m e m1 m2, estep m e m1 -> estep m e m2 -> m1 = m2.
  Proof.
    intros m e m1 m2 (_ & t & p & E & _ & F & _) (_ & t' & p' & E' & _ & F' & _).
    assert (t = t') by (apply (proj1 (NoDup_nth_error tnames) Htn); [apply nth_error_Some; congruence|congruence]). subst t'.
    eapply fires_det; eauto.
  Qed.
  Lemma eplays_det : forall m es m1 m2, eplays m es m1 -> eplays m es m2 -> m1 = m2.
  Proof.
    intros m es m1 m2 H. revert m2. induction H as [m|m e m1 l m2 S1 P IH]; intros m3 H3; inversion H3 as [|? ? mx ? ? S2 P2]; subst; [reflexivity|].
    apply IH. rewrite (estep_det _ _ _ _ S1 S2). assumption.
  Qed.
  Lemma fires_len : forall tr m m', fires tr m m' -> length m' = length m.
  Proof. intros tr m m' (_ & H & _). exact H. Qed.
  Lemma eplays_len : forall m es m', eplays m es m' -> length m' = length m.
  Proof.
    intros m es m' H. induction H; [reflexivity|]. rewrite IHeplays. destruct H as (_ & t & pre & _ & _ & F & _). eapply fires_len; eauto.
  Qed.
  Lemma estop_cons : forall m e es, estop m (e :: es) <->
    (te_id e = dl /\ dead (to_pnet net) m) \/ (exists m1, estep m e m1 /\ estop m1 es).
  Proof.
    intros m e es. split.
    - intros (es1 & d & es2 & m' & E & Hd & P & D). destruct es1 as [|x es1]; cbn [app] in E; injection E as E1 E2; subst.
      + inversion P; subst. left. auto.
      + inversion P; subst. right. eexists. split; [eassumption|]. exists es1, d, es2, m'. auto.
    - intros [(H1 & H2)|(m1 & H1 & (es1 & d & es2 & m' & -> & Hd & P & D))].
      + exists [], e, es, m. split; [reflexivity|]. split; [exact H1|]. split; [constructor|exact H2].
      + exists (e :: es1), d, es2, m'. split; [reflexivity|]. split; [exact Hd|]. split; [econstructor; eauto|exact D].
  Qed.

  (** every reachable count stays below the limit of the generator *)
  Definition bounded_counts : Prop := forall m, reachable (to_pnet net) (cn_init net) m -> forall p, (tokens m p < 2 ^ 32 - 1)%N.

  Lemma no_overflow : bounded_counts -> forall m t, reachable (to_pnet net) (cn_init net) m -> length m = cn_places net ->
    t < cn_ntrans net -> enabled (net_trans net t) m -> ~ overflows (net_trans net t) m.
  Proof.
    intros B m t Hr Hm Ht He (a & Ha & Ho). assert (W := wf_net_trans L Ht). destruct W as (W1 & W2 & W3 & W4).
    assert (F := fire_fun_fires _ _ W3 He). set (m' := fire_fun (net_trans net t) m) in *.
    assert (Hr' : reachable (to_pnet net) (cn_init net) m').
    { eapply reach_trans; [exact Hr|]. exists [t]. econstructor; [|constructor]. exists (net_trans net t). split; [apply net_trans_in; exact Ht|exact F]. }
    specialize (B m' Hr' (arc_place a)). destruct F as (_ & _ & F). destruct (W2 a Ha) as (Hp & Hi).
    destruct (F (arc_place a)) as (_ & E); [lia|]. rewrite E in B.
    assert (G : (arc_weight a <= weight_at (tr_post (net_trans net t)) (arc_place a))%N).
    { clear - Ha Hi. induction (tr_post (net_trans net t)) as [|x l IH]; [destruct Ha|]. rewrite weight_at_cons.
      destruct Ha as [->|Ha]; [rewrite Nat.eqb_refl, Hi; cbn [andb negb]; lia|].
      specialize (IH Ha). destruct (Nat.eqb (arc_place x) (arc_place a) && negb (arc_inhib x))%bool; lia. }
    lia.
  Qed.

  Lemma init_reach : reachable (to_pnet net) (cn_init net) (cn_init net).
  Proof. exists []. constructor. Qed.

  (** One run of the loop over entries before the loop position, or after it. *)
  Definition clear_loop (loop : option nat) (i n : nat) (m : marking) (lm : option marking) : Prop :=
    forall k, loop = Some k -> i + n <= k \/ k < i \/ (k = i /\ lm = Some m).
  Lemma fits_of_fires : forall m, fits32 m -> length m = cn_places net -> forall t m', t < cn_ntrans net ->
    fire net m t = Ok m' -> enabled (net_trans net t) m -> fits32 m' /\ length m' = cn_places net /\ fires (net_trans net t) m m'.
  Proof.
    intros m Hf Hm t m' Ht E He. destruct (@fire_ok net m t L Hm Hf Ht He) as [(No & m2 & E2 & F)|(_ & E2)]; [|congruence].
    rewrite E in E2. injection E2 as <-. split; [|split; [rewrite (fires_len _ _ _ F); exact Hm|exact F]].
    intros p. destruct (Nat.lt_ge_cases p (length m)) as [Hp|Hp].
    - destruct F as (_ & _ & F). destruct (F p Hp) as (_ & ->).
      destruct (wf_net_trans L Ht) as (W1 & W2 & W3 & W4).
      assert (G : weight_at (tr_post (net_trans net t)) p = 0%N \/ exists a, In a (tr_post (net_trans net t)) /\ arc_place a = p /\
        weight_at (tr_post (net_trans net t)) p = arc_weight a).
      { clear - W2 W4. induction (tr_post (net_trans net t)) as [|x l IH]; [left; reflexivity|]. rewrite weight_at_cons. cbn [map] in W4. inversion W4; subst.
        destruct (Nat.eqb_spec (arc_place x) p) as [<-|Hne].
        - right. exists x. split; [left; reflexivity|]. split; [reflexivity|]. rewrite (weight_at_notin l) by assumption.
          destruct (W2 x (or_introl eq_refl)) as (_ & ->). cbn [andb negb]. lia.
        - destruct IH as [IH|(a & Ha & Hp & IH)]; [intros a Ha; apply W2; right; exact Ha|assumption| |].
          + left. rewrite IH. destruct (arc_inhib x); reflexivity.
          + right. exists a. split; [right; exact Ha|]. split; [exact Hp|]. rewrite IH. cbn [andb]. lia. }
      destruct G as [->|(a & Ha & Hpa & ->)]; [specialize (Hf p); lia|].
      destruct (N.lt_ge_cases (tokens m p - weight_at (tr_pre (net_trans net t)) p + arc_weight a) (2 ^ 32)) as [|Hge]; [assumption|].
      exfalso. apply No. exists a. split; [exact Ha|]. rewrite Hpa. lia.
    - unfold tokens. rewrite nth_overflow; [lia|]. rewrite (fires_len _ _ _ F). exact Hp.
  Qed.

  Lemma play_sound : forall loop es rest i m lm, fits32 m -> length m = cn_places net ->
    clear_loop loop i (length es) m lm ->
    play net dl tnames loop i (es ++ rest) m lm = Ok true ->
    estop m es \/ exists m', eplays m es m' /\ fits32 m' /\ play net dl tnames loop (i + length es) rest m' lm = Ok true.
  Proof.
    intros loop. induction es as [|e es IH]; intros rest i m lm Hf Hm C; cbn [app length].
    - intros H. right. exists m. rewrite Nat.add_0_r. split; [constructor|]. split; [exact Hf|exact H].
    - cbn [play].
      assert (Elm : (if match loop with Some k => Nat.eqb i k | None => false end then @Some (list N) m else lm) = lm).
      { destruct loop as [k|]; [|reflexivity]. destruct (Nat.eqb_spec i k) as [<-|]; [|reflexivity].
        destruct (C i eq_refl) as [C1|[C1|(_ & ->)]]; [cbn [length] in C1; lia|lia|reflexivity]. }
      rewrite Elm. unfold find_trans. destruct (Nat.eqb_spec (te_id e) dl) as [Ed|Ed].
      + intros H. left. apply estop_cons. left. split; [exact Ed|].
        destruct (@deadlocked_spec net m L Hpl Hm) as (b & E & D). rewrite H in E. injection E as <-. apply D. reflexivity.
      + destruct (find_name tnames (te_id e)) as [t|] eqn:Et; [|discriminate]. apply find_name_some in Et.
        assert (Ht : t < cn_ntrans net) by (rewrite <- Htl; apply nth_error_Some; congruence).
        rewrite (check_preset_ok L m Hm Ht). cbn [bind]. destruct (enabledb (net_trans net t) m) eqn:Eb; [|discriminate].
        apply enabledb_spec in Eb. destruct (fire net m t) as [m1| | |] eqn:Ef; try discriminate. cbn [bind].
        destruct (preset net t) as [pre| | |] eqn:Ep; try discriminate. cbn [bind].
        destruct (fits_of_fires m Hf Hm t m1 Ht Ef Eb) as (Hf1 & Hm1 & F).
        destruct (if te_tokens e then true else check_tokens (te_tokens e) pre) eqn:Ec; [|discriminate]. intros H.
        assert (S1 : estep m e m1).
        { split; [exact Ed|]. exists t, pre. split; [exact Et|]. split; [exact Ht|]. split; [exact F|]. split; [exact Ep|].
          destruct (te_tokens e); [left; reflexivity|right; exact Ec]. }
        apply IH in H; [|exact Hf1|exact Hm1|].
        * destruct H as [H|(m' & H1 & H2 & H3)].
          -- left. apply estop_cons. right. eauto.
          -- right. exists m'. split; [econstructor; eauto|]. split; [exact H2|]. replace (i + S (length es)) with (S i + length es) by lia. exact H3.
        * intros k Ek. destruct (C k Ek) as [C1|[C1|(C1 & _)]]; cbn [length] in C1; [left; lia|right; left; lia|right; left; lia].
  Qed.
  Lemma play_complete : bounded_counts -> forall loop es rest i m lm, reachable (to_pnet net) (cn_init net) m -> length m = cn_places net ->
    clear_loop loop i (length es) m lm ->
    (estop m es \/ exists m', eplays m es m' /\ play net dl tnames loop (i + length es) rest m' lm = Ok true) ->
    play net dl tnames loop i (es ++ rest) m lm = Ok true.
  Proof.
    intros B loop. induction es as [|e es IH]; intros rest i m lm Hr Hm C; cbn [app length].
    - intros [(es1 & d & es2 & m' & E & _)|(m' & H1 & H2)]; [destruct es1; discriminate|]. inversion H1; subst. rewrite Nat.add_0_r in H2. exact H2.
    - cbn [play].
      assert (Elm : (if match loop with Some k => Nat.eqb i k | None => false end then @Some (list N) m else lm) = lm).
      { destruct loop as [k|]; [|reflexivity]. destruct (Nat.eqb_spec i k) as [<-|]; [|reflexivity].
        destruct (C i eq_refl) as [C1|[C1|(_ & ->)]]; [cbn [length] in C1; lia|lia|reflexivity]. }
      rewrite Elm. clear Elm. intros H.
      assert (X : (te_id e = dl /\ dead (to_pnet net) m) \/ exists m1, estep m e m1 /\
         (estop m1 es \/ exists m', eplays m1 es m' /\ play net dl tnames loop (S i + length es) rest m' lm = Ok true)).
      { destruct H as [H|(m' & H1 & H2)].
        - apply estop_cons in H. destruct H as [H|(m1 & H1 & H2)]; [left; exact H|right; eauto].
        - inversion H1; subst. right. eexists. split; [eassumption|]. right. eexists. split; [eassumption|].
          replace (S i + length es) with (i + S (length es)) by lia. exact H2. }
      clear H. unfold find_trans. destruct X as [(Ed & D)|(m1 & S1 & X)].
      + rewrite Ed, Nat.eqb_refl. destruct (@deadlocked_spec net m L Hpl Hm) as (b & E & Db). rewrite E. apply Db in D. subst b. reflexivity.
      + assert (Hr1 : reachable (to_pnet net) (cn_init net) m1) by (eapply reach_trans; [exact Hr|eapply estep_reach; eauto]).
        destruct S1 as (Ed & t & pre & Et & Ht & F & Ep & Ec).
        destruct (Nat.eqb_spec (te_id e) dl) as [|_]; [contradiction|].
        rewrite (find_name_nth _ _ _ Htn Et). rewrite (check_preset_ok L m Hm Ht). cbn [bind].
        assert (He : enabled (net_trans net t) m) by apply F. rewrite (proj2 (enabledb_spec _ _) He).
        assert (Hf : fits32 m) by (intros p; specialize (B m Hr p); lia).
        destruct (@fire_ok net m t L Hm Hf Ht He) as [(_ & m2 & E2 & F2)|(O & _)];
          [|exfalso; revert O; apply no_overflow; assumption].
        rewrite E2. cbn [bind]. rewrite Ep. cbn [bind]. rewrite (fires_det F2 F).
        replace (if te_tokens e then true else check_tokens (te_tokens e) pre) with true by (destruct Ec as [->|Ec]; [reflexivity|destruct (te_tokens e); auto]).
        apply IH; [exact Hr1|rewrite (fires_len _ _ _ F); exact Hm| |exact X].
        intros k Ek. destruct (C k Ek) as [C1|[C1|(C1 & _)]]; cbn [length] in C1; [left; lia|right; left; lia|right; left; lia].
  Qed.

  (** * From entries back to the elements of the trace *)
  Lemma check_tokens_spec : forall ps tr pre t, known_places pnames ps -> ps <> [] ->
    nth_error (pn_trans (to_pnet net)) t = Some tr -> tr_pre tr = map inv_arc pre -> 
    (check_tokens (map place_ix ps) pre = true <-> claims_ok pnames tr ps).
  Proof.
    intros ps tr pre t (Hk & Hlen) Hne Ht Ep.
    assert (Hcount : forall p n, nth_error pnames p = Some n -> count_occ Nat.eq_dec (map place_ix ps) p = count_occ Nat.eq_dec ps n).
    { intros p n Hp. clear Hne Hlen. induction ps as [|x ps IH]; [reflexivity|]. cbn [map count_occ].
      rewrite IH by (intros y Hy; apply Hk; right; exact Hy).
      destruct (find_name_in pnames x) as (j & Ej); [apply Hk; left; reflexivity|]. unfold place_ix. rewrite Ej. apply find_name_some in Ej.
      destruct (Nat.eq_dec j p) as [->|Hj], (Nat.eq_dec x n) as [->|Hx]; try reflexivity; [congruence|].
      exfalso. apply Hj. apply (proj1 (NoDup_nth_error pnames) Hpn); [apply nth_error_Some; congruence|congruence]. }
    assert (Hle : forall n, (N.of_nat (count_occ Nat.eq_dec ps n) < 2 ^ 32)%N).
    { intros n. assert (X := count_occ_bound Nat.eq_dec n ps). lia. }
    assert (Hpre : forall a, In a (tr_pre tr) -> arc_place a < cn_places net).
    { apply (ly_wf L). eapply nth_error_In; eauto. }
    assert (Hwp : forall a, In a (tr_pre tr) -> arc_inhib a = false -> (0 < arc_weight a)%N) by (intros a; apply (Hw t tr); exact Ht).
    assert (G : check_tokens (map place_ix ps) pre = true <->
      forall iv, In iv pre -> iv_inhib iv = false -> N.of_nat (count_occ Nat.eq_dec (map place_ix ps) (iv_place iv)) = iv_tokens iv).
    { rewrite Ep in Hpre, Hwp. clear Ep. induction pre as [|iv pre IH]; cbn [check_tokens]; [split; [intros _ x []|reflexivity]|].
      destruct IH as (IH1 & IH2); [intros a Ha; apply Hpre; right; exact Ha|intros a Ha; apply Hwp; right; exact Ha|].
      destruct (iv_inhib iv) eqn:Ei.
      - split; [intros H x [<-|Hx] Hxi; [congruence|apply IH1; auto]|]. intros H. apply IH2. intros x Hx. apply H. right. exact Hx.
      - assert (Hp := Hpre (inv_arc iv) (or_introl eq_refl)). cbn [inv_arc arc_place] in Hp.
        destruct (nth_error pnames (iv_place iv)) as [n|] eqn:En; [|apply nth_error_None in En; lia].
        rewrite (Hcount _ _ En). specialize (Hle n). assert (Hz := Hwp (inv_arc iv) (or_introl eq_refl) Ei). cbn [inv_arc arc_weight] in Hz.
        rewrite N.mod_small by exact Hle.
        destruct (Nat.eqb_spec (count_occ Nat.eq_dec ps n) 0) as [E0|E0].
        + split; [discriminate|]. intros H. specialize (H iv (or_introl eq_refl) Ei). rewrite (Hcount _ _ En), E0 in H. cbn in H. lia.
        + destruct (N.eqb_spec (N.of_nat (count_occ Nat.eq_dec ps n)) (iv_tokens iv)) as [E1|E1]; cbn [negb].
          * split; [intros H x [<-|Hx] Hxi; [rewrite (Hcount _ _ En); exact E1|apply IH1; auto]|]. intros H. apply IH2. intros x Hx. apply H. right. exact Hx.
          * split; [discriminate|]. intros H. specialize (H iv (or_introl eq_refl) Ei). rewrite (Hcount _ _ En) in H. contradiction. }
    rewrite G. unfold claims_ok. rewrite Ep. split.
    - intros H. right. intros a n Ha Hi En. apply in_map_iff in Ha. destruct Ha as (iv & <- & Hv). cbn [inv_arc arc_place arc_inhib arc_weight] in *.
      rewrite <- (Hcount _ _ En). apply H; assumption.
    - intros [H|H]; [contradiction|]. intros iv Hv Hi. assert (Ha := in_map inv_arc _ _ Hv). rewrite <- Ep in Ha. specialize (Hpre _ Ha).
      cbn [inv_arc arc_place] in Hpre. destruct (nth_error pnames (iv_place iv)) as [n|] eqn:En; [|apply nth_error_None in En; lia].
      rewrite (Hcount _ _ En). rewrite Ep in Ha. exact (H (inv_arc iv) n Ha Hi En).
  Qed.
  Lemma ents_cons : forall n l, ents (n :: l) = ent n ++ ents l.
  Proof. reflexivity. Qed.
  Lemma ents_app : forall a b, ents (a ++ b) = ents a ++ ents b.
  Proof. intros a b. unfold ents. rewrite flat_map_app. reflexivity. Qed.
  Lemma plays_ents : forall l m m', readable pnames l -> (plays (to_pnet net) pnames tnames dl m l m' <-> eplays m (ents l) m').
  Proof.
    induction l as [|n l IH]; intros m m' Hr.
    - split; intros H; inversion H; subst; constructor.
    - assert (Hr' : readable pnames l) by (intros x Hx; apply Hr; right; exact Hx). assert (Hn := Hr n (or_introl eq_refl)).
      rewrite ents_cons. destruct n as [|[id|] ps|ps]; cbn [ent app].
      + rewrite <- (IH m m' Hr'). split; [intros H; inversion H; subst; assumption|constructor; assumption].
      + split.
        * intros H. inversion H as [| |? t tr ? ? m1 ? ? Hd Et Etr F Hcl P]; subst. econstructor; [|apply IH; [exact Hr'|eassumption]].
          apply net_trans_inv in Etr. destruct Etr as (Ht & ->). split; [exact Hd|].
          destruct (preset_ok net t L Ht) as (pre & Ep & Epre). exists t, pre. cbn [te_id te_tokens].
          split; [assumption|]. split; [exact Ht|]. split; [assumption|]. split; [exact Ep|].
          destruct ps as [|x ps]; [left; reflexivity|right]. eapply check_tokens_spec; eauto; [apply Hn|discriminate|apply net_trans_in; exact Ht].
        * intros H. inversion H as [|? ? mx ? ? S1 P]; subst. destruct S1 as (Hd & t & pre & Et & Ht & F & Ep & Ec). cbn [te_id te_tokens] in *.
          eapply plays_fire; [exact Hd|exact Et|apply net_trans_in; exact Ht|exact F| |apply IH; [exact Hr'|exact P]].
          destruct ps as [|x ps]; [left; reflexivity|].
          destruct Ec as [Ec|Ec]; [discriminate|]. destruct (preset_ok net t L Ht) as (pre' & Ep' & Epre). rewrite Ep in Ep'. injection Ep' as <-.
          eapply check_tokens_spec in Ec; eauto; [apply Hn|discriminate|apply net_trans_in; exact Ht].
      + destruct Hn; congruence.
      + split; [intros H; inversion H|]. intros H. inversion H as [|? ? mx ? ? S1 P]; subst. destruct S1 as (Hd & _). cbn [te_id] in Hd. congruence.
  Qed.
  Lemma ents_split : forall l es1 d es2, readable pnames l -> ents l = es1 ++ d :: es2 ->
    exists l1 n l2, l = l1 ++ n :: l2 /\ ents l1 = es1 /\ ent n = [d].
  Proof.
    induction l as [|n l IH]; intros es1 d es2 Hr E; [destruct es1; discriminate|].
    assert (Hr' : readable pnames l) by (intros x Hx; apply Hr; right; exact Hx). assert (Hn := Hr n (or_introl eq_refl)).
    rewrite ents_cons in E. assert (X : ent n = [] \/ exists x, ent n = [x]).
    { destruct n as [|[id|] ps|ps]; cbn [ent]; eauto. }
    destruct X as [X|(x & X)]; rewrite X in E; cbn [app] in E.
    - destruct (IH _ _ _ Hr' E) as (l1 & n' & l2 & -> & E1 & E2). exists (n :: l1), n', l2. split; [reflexivity|]. split; [|exact E2].
      rewrite ents_cons, X. exact E1.
    - destruct es1 as [|y es1]; cbn [app] in E; injection E as -> E.
      + exists [], n, l. split; [reflexivity|]. split; [reflexivity|exact X].
      + destruct (IH _ _ _ Hr' E) as (l1 & n' & l2 & -> & E1 & E2). exists (n :: l1), n', l2. split; [reflexivity|]. split; [|exact E2].
        rewrite ents_cons, X, E1. reflexivity.
  Qed.
  Lemma estop_ents : forall l m, readable pnames l -> (estop m (ents l) <->
    exists l1 d l2 m', l = l1 ++ d :: l2 /\ is_dead_node dl d /\ plays (to_pnet net) pnames tnames dl m l1 m' /\ dead (to_pnet net) m').
  Proof.
    intros l m Hr. split.
    - intros (es1 & d & es2 & m' & E & Hd & P & D). destruct (ents_split _ _ _ _ Hr E) as (l1 & n & l2 & -> & E1 & E2).
      exists l1, n, l2, m'. split; [reflexivity|]. split.
      + destruct n as [|[id|] ps|ps]; cbn [ent] in E2; try discriminate; injection E2 as <-; cbn in *; auto.
      + split; [|exact D]. apply plays_ents; [intros x Hx; apply Hr; apply in_or_app; left; exact Hx|]. rewrite E1. exact P.
    - intros (l1 & d & l2 & m' & -> & Hd & P & D). rewrite ents_app, ents_cons.
      assert (Hr1 : readable pnames l1) by (intros x Hx; apply Hr; apply in_or_app; left; exact Hx).
      apply plays_ents in P; [|exact Hr1].
      assert (X : exists e, ent d = [e] /\ te_id e = dl).
      { destruct d as [|[id|] ps|ps]; cbn [ent is_dead_node] in *; try contradiction; eexists; split; try reflexivity. cbn. exact Hd. }
      destruct X as (e & -> & He). exists (ents l1), e, (ents l2), m'. split; [reflexivity|]. auto.
  Qed.
  Lemma last_loop : forall l, no_loop l \/ exists l1 l2, l = l1 ++ TLoop :: l2 /\ no_loop l2.
  Proof.
    induction l as [|n l IH]; [left; intros x []|]. destruct IH as [IH|(l1 & l2 & -> & IH)].
    - destruct n as [|id ps|ps].
      + right. exists [], l. auto.
      + left. intros x [<-|Hx]; [reflexivity|apply IH; exact Hx].
      + left. intros x [<-|Hx]; [reflexivity|apply IH; exact Hx].
    - right. exists (n :: l1), l2. auto.
  Qed.
  Lemma last_loop_unique : forall l1 l2 k1 k2, l1 ++ TLoop :: l2 = k1 ++ TLoop :: k2 -> no_loop l2 -> no_loop k2 -> l1 = k1 /\ l2 = k2.
  Proof.
    induction l1 as [|x l1 IH]; intros l2 [|y k1] k2 E H1 H2; cbn [app] in E.
    - injection E as <-. auto.
    - injection E as <- ->. exfalso. assert (X := H1 TLoop (in_elt _ _ _)). discriminate X.
    - injection E as -> <-. exfalso. assert (X := H2 TLoop (in_elt _ _ _)). discriminate X.
    - injection E as <- E. destruct (IH _ _ _ E H1 H2) as (-> & ->). auto.
  Qed.
  Lemma no_loop_ents : forall l, readable pnames l -> no_loop l -> ents l = [] -> l = [].
  Proof.
    intros [|n l] Hr Hn E; [reflexivity|]. assert (X := Hn n (or_introl eq_refl)). assert (Y := Hr n (or_introl eq_refl)).
    destruct n as [|[id|] ps|ps]; try discriminate. destruct Y; congruence.
  Qed.
  Lemma end_compare : forall m m0, length m = cn_places net -> length m0 = cn_places net ->
    (forallb (fun p => (nth p m 0 =? nth p m0 0)%N) (seq 0 (cn_places net)) = true <-> m = m0).
  Proof.
    intros m m0 H H0. rewrite forallb_forall. split; [|intros ->; intros; apply N.eqb_refl].
    intros G. apply (nth_ext _ _ 0%N 0%N); [congruence|]. intros p Hp. apply N.eqb_eq. apply G. apply in_seq. lia.
  Qed.
  (** saving the loop state at the first entry *)
  Lemma play_start_loop : forall k es m lm lm', es <> [] ->
    play net dl tnames (Some k) k es m lm = play net dl tnames (Some k) k es m lm'.
  Proof. intros k [|e es] m lm lm' H; [congruence|]. cbn [play]. rewrite Nat.eqb_refl. reflexivity. Qed.

  Definition playr (l : list tnode) (m : marking) : res bool :=
    play net dl tnames (loop_at l 0 None) 0 (ents l) m None.

  Lemma playr_sound : forall l, readable pnames l -> fits32 (cn_init net) -> playr l (cn_init net) = Ok true ->
    right (to_pnet net) pnames tnames dl (cn_init net) l.
  Proof.
    intros l Hr Hf. unfold playr, right. destruct (last_loop l) as [Hn|(l1 & l2 & -> & Hn)].
    - rewrite loop_at_none by exact Hn. intros H. rewrite <- (app_nil_r (ents l)) in H.
      apply play_sound in H; [|exact Hf|exact Hinit|intros k; discriminate]. destruct H as [H|(m' & H & _ & _)].
      + left. apply estop_ents; assumption.
      + right. exists m'. split; [apply plays_ents; assumption|]. intros k1 k2 -> Hk. specialize (Hn TLoop (in_elt _ _ _)). discriminate Hn.
    - assert (Hr1 : readable pnames l1) by (intros x Hx; apply Hr; apply in_or_app; left; exact Hx).
      assert (Hr2 : readable pnames l2) by (intros x Hx; apply Hr; apply in_or_app; right; right; exact Hx).
      rewrite loop_at_split by assumption. cbn [Nat.add]. rewrite ents_app, ents_cons. cbn [ent app]. intros H.
      apply play_sound in H; [|exact Hf|exact Hinit|intros k Ek; injection Ek as <-; left; reflexivity].
      assert (Hstop : forall m, estop m (ents l1 ++ ents l2) -> exists k1 d k2 m',
        l1 ++ TLoop :: l2 = k1 ++ d :: k2 /\ is_dead_node dl d /\ plays (to_pnet net) pnames tnames dl m k1 m' /\ dead (to_pnet net) m').
      { intros m Hs. apply estop_ents; [exact Hr|]. rewrite ents_app, ents_cons. exact Hs. }
      destruct H as [(es1 & d & es2 & m' & E & Hd & P & D)|(m1 & P1 & Hf1 & H)].
      + left. apply Hstop. exists es1, d, (es2 ++ ents l2), m'. rewrite E, <- app_assoc. auto.
      + cbn [Nat.add] in H. assert (Hm1 : length m1 = cn_places net) by (rewrite (eplays_len _ _ _ P1); exact Hinit).
        destruct (list_eq_dec (fun a b : tentry => ltac:(decide equality; [apply (list_eq_dec Nat.eq_dec)|apply Nat.eq_dec])) (ents l2) []) as [E2|E2].
        * right. exists m1. split; [apply plays_ents; [exact Hr|]; rewrite ents_app, ents_cons, E2; cbn [ent app]; rewrite app_nil_r; exact P1|].
          intros k1 k2 E Hk Hne. apply last_loop_unique in E; try assumption. destruct E as (<- & <-).
          exfalso. apply Hne. apply no_loop_ents; assumption.
        * rewrite (play_start_loop _ _ _ _ (Some m1)) in H by exact E2. rewrite <- (app_nil_r (ents l2)) in H.
          apply play_sound in H; [|exact Hf1|exact Hm1|intros k Ek; injection Ek as <-; right; right; auto].
          destruct H as [(es1 & d & es2 & m' & E & Hd & P & D)|(m' & P2 & Hf2 & H)].
          -- left. apply Hstop. exists (ents l1 ++ es1), d, es2, m'. rewrite E, <- app_assoc. split; [reflexivity|]. split; [exact Hd|].
             split; [|exact D]. apply eplays_app. eauto.
          -- cbn [play] in H. injection H as H. apply end_compare in H; [|rewrite (eplays_len _ _ _ P2); exact Hm1|exact Hm1]. subst m'.
             right. exists m1. split; [apply plays_ents; [exact Hr|]; rewrite ents_app, ents_cons; apply eplays_app; eauto|].
             intros k1 k2 E Hk Hne. apply last_loop_unique in E; try assumption. destruct E as (<- & <-). apply plays_ents; assumption.
  Qed.
  Lemma playr_complete : bounded_counts -> forall l, readable pnames l ->
    right (to_pnet net) pnames tnames dl (cn_init net) l -> playr l (cn_init net) = Ok true.
  Proof.
    intros B l Hr. unfold playr, right. destruct (last_loop l) as [Hn|(l1 & l2 & -> & Hn)].
    - rewrite loop_at_none by exact Hn. intros H. rewrite <- (app_nil_r (ents l)).
      apply play_complete; [exact B|exact init_reach|exact Hinit|intros k; discriminate|].
      destruct H as [H|(m' & H & _)].
      + left. apply estop_ents; assumption.
      + right. exists m'. split; [apply plays_ents; assumption|reflexivity].
    - assert (Hr1 : readable pnames l1) by (intros x Hx; apply Hr; apply in_or_app; left; exact Hx).
      assert (Hr2 : readable pnames l2) by (intros x Hx; apply Hr; apply in_or_app; right; right; exact Hx).
      rewrite loop_at_split by assumption. cbn [Nat.add]. rewrite ents_app, ents_cons. cbn [ent app]. intros H.
      apply play_complete; [exact B|exact init_reach|exact Hinit|intros k Ek; injection Ek as <-; left; reflexivity|].
      assert (X : estop (cn_init net) (ents l1 ++ ents l2) \/ exists m1, eplays (cn_init net) (ents l1) m1 /\
        exists m', eplays m1 (ents l2) m' /\ (l2 <> [] -> m1 = m')).
      { destruct H as [H|(m' & H & Hl)].
        - left. apply estop_ents in H; [|exact Hr]. rewrite ents_app, ents_cons in H. exact H.
        - right. apply plays_ents in H; [|exact Hr]. rewrite ents_app, ents_cons in H. cbn [ent app] in H. apply eplays_app in H.
          destruct H as (m1 & P1 & P2). exists m1. split; [exact P1|]. exists m'. split; [exact P2|].
          intros Hne. specialize (Hl l1 l2 eq_refl Hn Hne). apply plays_ents in Hl; [|exact Hr1]. eapply eplays_det; eauto. }
      assert (Stop2 : forall m, estop m (ents l1 ++ ents l2) -> estop m (ents l1) \/ exists m1, eplays m (ents l1) m1 /\ estop m1 (ents l2)).
      { clear. induction (ents l1) as [|e es IH]; intros m H; [right; exists m; split; [constructor|exact H]|].
        cbn [app] in H. apply estop_cons in H. destruct H as [H|(m1 & H1 & H2)]; [left; apply estop_cons; left; exact H|].
        destruct (IH _ H2) as [G|(mx & G1 & G2)]; [left; apply estop_cons; right; eauto|]. right. exists mx. split; [econstructor; eauto|exact G2]. }
      assert (Y : forall m1, eplays (cn_init net) (ents l1) m1 ->
        (estop m1 (ents l2) \/ exists m', eplays m1 (ents l2) m' /\ (l2 <> [] -> m1 = m')) ->
        play net dl tnames (Some (length (ents l1))) (length (ents l1)) (ents l2) m1 None = Ok true).
      { intros m1 P1 H1. assert (Hm1 : length m1 = cn_places net) by (rewrite (eplays_len _ _ _ P1); exact Hinit).
        destruct (ents l2) as [|e es] eqn:E2; [reflexivity|]. rewrite <- E2 in *.
        assert (Hne : ents l2 <> []) by congruence. assert (Hl2 : l2 <> []) by (intros ->; apply Hne; reflexivity).
        rewrite (play_start_loop _ _ _ _ (Some m1)) by exact Hne. rewrite <- (app_nil_r (ents l2)).
        apply play_complete; [exact B|eapply eplays_reach; eauto|exact Hm1|intros k Ek; injection Ek as <-; right; right; auto|].
        destruct H1 as [H1|(m' & H1 & Hm)]; [left; exact H1|right]. exists m'. split; [exact H1|]. cbn [play]. f_equal.
        rewrite <- (Hm Hl2). apply end_compare; auto. }
      destruct X as [X|(m1 & P1 & X)].
      + apply Stop2 in X. destruct X as [X|(m1 & P1 & X)]; [left; exact X|right; exists m1; split; [exact P1|]; apply Y; auto].
      + right. exists m1. split; [exact P1|]. apply Y; auto.
  Qed.
  Lemma replay_unfold : forall ltl l, readable pnames l -> (ltl = true -> In TLoop l) ->
    replay net dl pnames tnames ltl l = playr l (cn_init net).
  Proof.
    intros ltl l Hr Hl. unfold replay, playr. rewrite parse_root_ok by exact Hr. cbn [length app].
    destruct (loop_at l 0 None) as [k|] eqn:E; [reflexivity|]. destruct ltl; [|reflexivity].
    exfalso. specialize (Hl eq_refl). destruct (last_loop l) as [Hn|(l1 & l2 & -> & Hn)]; [specialize (Hn _ Hl); discriminate|].
    rewrite loop_at_split in E; [discriminate| |exact Hn]. intros x Hx; apply Hr; apply in_or_app; left; exact Hx.
  Qed.
End Replay.

Lemma replay_accepts : forall net pnames tnames dl ltl l,
  layout net -> 0 < cn_places net -> length (cn_init net) = cn_places net -> fits32 (cn_init net) ->
  NoDup pnames -> length pnames = cn_places net -> NoDup tnames -> length tnames = cn_ntrans net ->
  (forall t tr a, nth_error (pn_trans (to_pnet net)) t = Some tr -> In a (tr_pre tr) -> arc_inhib a = false -> (0 < arc_weight a)%N) ->
  readable pnames l -> (ltl = true -> In TLoop l) ->
  replay net dl pnames tnames ltl l = Ok true -> right (to_pnet net) pnames tnames dl (cn_init net) l.
Proof. intros. rewrite replay_unfold in H10 by assumption. eapply playr_sound; eauto. Qed.
Lemma replay_complete : forall net pnames tnames dl ltl l,
  layout net -> 0 < cn_places net -> length (cn_init net) = cn_places net -> 
  NoDup pnames -> length pnames = cn_places net -> NoDup tnames -> length tnames = cn_ntrans net ->
  (forall t tr a, nth_error (pn_trans (to_pnet net)) t = Some tr -> In a (tr_pre tr) -> arc_inhib a = false -> (0 < arc_weight a)%N) ->
  (forall m, reachable (to_pnet net) (cn_init net) m -> forall p, (tokens m p < 2 ^ 32 - 1)%N) ->
  readable pnames l -> (ltl = true -> In TLoop l) ->
  right (to_pnet net) pnames tnames dl (cn_init net) l -> replay net dl pnames tnames ltl l = Ok true.
Proof. intros. rewrite replay_unfold by assumption. eapply playr_complete; eauto. Qed.
