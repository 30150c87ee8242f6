(** The set delivered, and the search with it. *)
From Verif Require Import Base BaseLemmas NetSpec NetModel NetProofs PqlSyntax PqlSpec PqlModel PqlProofs PqlRuns StoreModel StoreSpec StoreProofs
  SearchModel SearchSpec SearchProofs QueueModel QueueProofs SearchMain StubSpec StubModel StubTheory StubProofs StubMain.

Section Net.
  Variable net : cnet.
  Hypothesis L : layout net.
  Notation P := (to_pnet net).
  Notation n := (cn_ntrans net).
  Section Marking.
    Variable m : marking.
    Hypothesis Hm : length m = cn_places net.
    Notation ord := (filter (fun i => enabledb (net_trans net i) m) (seq 0 n)).
    Lemma enabled_trans_ok : forall k t, t + k <= n -> enabled_trans net m t k = Ok (filter (fun i => enabledb (net_trans net i) m) (seq t k)).
    Proof.
      induction k as [|k IH]; intros t Hk; cbn [enabled_trans seq filter]; [reflexivity|].
      rewrite (@check_preset_ok net L m Hm t) by lia. cbn [bind]. rewrite IH by lia. cbn [bind]. reflexivity.
    Qed.
    Lemma enabled_places_ok : forall k p, p + k = cn_places net ->
      enabled_places net m p k = Ok (filter (fun i => enabledb (net_trans net i) m) (seq (gptr net p) (n - gptr net p))).
    Proof.
      induction k as [|k IH]; intros p Hk; cbn [enabled_places].
      - assert (p = cn_places net) by lia; subst p. rewrite (gptr_last L), Nat.sub_diag. reflexivity.
      - specialize (IH (S p) ltac:(lia)).
        pose proof (@gptr_mono1 _ L p ltac:(lia)) as Hmono.
        pose proof (@gptr_bound _ L (S p) ltac:(lia)) as Hb.
        replace (n - gptr net p) with ((gptr net (S p) - gptr net p) + (n - gptr net (S p))) by lia.
        rewrite seq_app, filter_app. replace (gptr net p + (gptr net (S p) - gptr net p)) with (gptr net (S p)) by lia.
        assert (Hgo : exists go, (if p =? 0 then Ok true else v <- rd m p;; Ok (0 <? v)%N) = Ok go /\
                     (go = false -> 0 < p /\ tokens m p = 0%N)).
        { destruct (Nat.eqb_spec p 0) as [->|Hne].
          - exists true. split; auto; discriminate.
          - rewrite (@rd_nth _ m p 0%N) by lia. cbn [bind]. fold (tokens m p).
            exists (0 <? tokens m p)%N. destruct (N.ltb_spec 0 (tokens m p)); split; auto; try discriminate; lia. }
        destruct Hgo as (go & -> & Hgf); cbn [bind]. destruct go.
        + rewrite (@rd_some _ _ _ _ (@gptr_rd net L p ltac:(lia))); cbn [bind].
          rewrite (@rd_some _ _ _ _ (@gptr_rd net L (S p) ltac:(lia))); cbn [bind].
          destruct (Nat.ltb_spec (gptr net (S p)) (gptr net p)); [lia|].
          rewrite enabled_trans_ok by lia. cbn [bind]. rewrite IH. cbn [bind]. reflexivity.
        + destruct (Hgf eq_refl) as (Hp0 & Hz). cbn [bind]. rewrite IH. cbn [bind].
          rewrite (@filter_none _ _ (seq (gptr net p) (gptr net (S p) - gptr net p))); [reflexivity|].
          intros i Hi. apply in_seq in Hi. eapply (@group_empty net L m Hm); eauto; lia.
    Qed.
    Lemma ord_in : forall t, In t ord <-> t < n /\ enabled (net_trans net t) m.
    Proof. intros t. rewrite filter_In, in_seq, enabledb_spec. intuition lia. Qed.
    Lemma mem_in : forall l t, mem l t = true <-> In t l.
    Proof. intros l t. unfold mem. rewrite existsb_exists. split; [intros (x & A & B); apply Nat.eqb_eq in B; subst; exact A|intros H; exists t; split; [exact H|apply Nat.eqb_refl]]. Qed.
    Lemma step_ord : forall t m', step P m t m' -> In t ord.
    Proof. intros t m' (tr & E & F). apply net_trans_inv in E. destruct E as (Ht & ->). apply ord_in. split; [exact Ht|exact (proj1 F)]. Qed.
    Hypothesis Hpl : 0 < cn_places net.
    Hypothesis D : dirs_ok net.
    Hypothesis Hfit : fits m.

    Lemma all_good : forall goal l, (forall t, In t ord -> In t l) -> ~ goal m -> good_choice P goal m l.
    Proof.
      intros goal l Hl Hg. right. exists (fun _ => true). split; [|split].
      - intros t Ht _. split.
        + intros _ u a _ X. discriminate.
        + intros E. rewrite (trn_net net) in E by (rewrite <- (ntrans_len net); exact Ht). rewrite <- enabledb_spec in E.
          assert (X : exists a, In a (tr_pre (net_trans net t)) /\ arc_okb m a = false).
          { unfold enabledb in E. induction (tr_pre (net_trans net t)) as [|a l0 IH]; [exfalso; apply E; reflexivity|]. cbn [forallb] in E.
            destruct (arc_okb m a) eqn:Ea; [|exists a; split; [left; reflexivity|exact Ea]]. destruct IH as (b & A & B); [exact E|]. exists b. split; [right; exact A|exact B]. }
          destruct X as (a & Ia & Ea). exists a. rewrite (trn_net net) by (rewrite <- (ntrans_len net); exact Ht). split; [exact Ia|].
          split; [rewrite <- arc_okb_spec; congruence|]. destruct (arc_inhib a); intros u _ _; reflexivity.
      - intros t m' _ St. apply Hl. eapply step_ord; eauto.
      - intros w m' (R & F). destruct w as [|t w]; [inversion R; subst; exact Hg|]. inversion F; discriminate.
    Qed.

    Lemma stubborn_ok : forall mk qs, exists l, stubborn net mk qs m = Ok l /\ (forall t, In t l -> t < n /\ enabled (net_trans net t) m) /\ NoDup l /\
      forall c, In c qs -> atomic c = true -> por_cond c = true -> small m c -> good_choice P (fun m => hm P m c) m l.
    Proof.
      intros mk qs. unfold stubborn. rewrite enabled_places_ok by lia. rewrite (gptr_0 L), Nat.sub_0_r. cbn [bind].
      pose proof ord_in as Hin. pose proof step_ord as Hst. pose proof all_good as Hall.
      assert (Nd : NoDup ord) by (apply NoDup_filter, seq_NoDup). set (o := ord) in *. clearbody o.
      assert (Hdec : forall c, atomic c = true -> hm P m c \/ ~ hm P m c).
      { destruct (@deadlocked_spec net m L Hpl Hm) as (b & _ & Hb). intros c Ha.
        pose proof (@satisfied_hm net L m Hfit (fun _ => b) Hb c Ha) as S. destruct (satisfied m (fun _ => b) c); [left; apply S; reflexivity|right; intros X; apply S in X; discriminate]. }
      destruct o as [|t0 [|t1 o]].
      - exists []. split; [reflexivity|]. split; [intros t []|]. split; [constructor|]. intros c _ Ha _ _. destruct (Hdec c Ha) as [H|H]; [left; exact H|apply Hall; auto].
      - exists [t0]. split; [reflexivity|]. split; [intros t Ht; apply Hin; exact Ht|]. split; [exact Nd|]. intros c _ Ha _ _. destruct (Hdec c Ha) as [H|H]; [left; exact H|apply Hall; auto].
      - set (od := t0 :: t1 :: o) in *. assert (Hne : exists t, mem od t = true) by (exists t0; apply mem_in; left; reflexivity). clearbody od.
        destruct (@deadlocked_spec net m L Hpl Hm) as (b & -> & Hb). cbn [bind].
        assert (Hen : forall t, mem od t = true <-> t < n /\ enabled (net_trans net t) m) by (intros t; rewrite mem_in; apply Hin).
        assert (I0 : inv net (stub_new net)).
        { assert (F : forall k i, nth i (repeat false k) false = false) by (induction k; intros [|i]; cbn; auto).
          constructor; unfold seen_pre, seen_post, seen_inhib, stub_new; cbn [st_stub st_todo st_pre st_post st_inhib]; [apply repeat_length|constructor| | |]; intros p; rewrite F; discriminate. }
        assert (P0 : pending net m (mem od) (stub_new net)).
        { intros t. unfold in_stub, stub_new; cbn [st_stub]. assert (F : forall k i, nth i (repeat false k) false = false) by (induction k; intros [|i]; cbn; auto). rewrite F. discriminate. }
        set (Q := fun c S => atomic c = true -> por_cond c = true -> small m c -> frozen net m false c S).
        destruct (@opok_fold net m (mem od) cond (fun s q => visit_cond net m (mem od) mk (fun _ => b) false q s) Q) with (l := qs) (s := stub_new net) as (s1 & E1 & I1 & P1 & Sb1 & H1).
        + intros c S S' Sb H A1 A2 A3. eapply frozen_mono; [exact Sb|auto].
        + intros c s Hc I Pe.
          destruct (atomic c && por_cond c) eqn:Ac.
          * apply andb_true_iff in Ac. destruct Ac as (A1 & A2).
            assert (X : small m c \/ ~ small m c).
            { clear - c. induction c using cond_ind'; cbn [small]; auto.
              - rewrite Forall_forall in H. induction l as [|x l IH]; cbn [map fold_right]; [auto|].
                destruct (H x (or_introl eq_refl)) as [A|A]; [|tauto]. destruct IH as [B|B]; [intros; apply H; right; assumption| |]; tauto.
              - rewrite Forall_forall in H. induction l as [|x l IH]; cbn [map fold_right]; [auto|].
                destruct (H x (or_introl eq_refl)) as [A|A]; [|tauto]. destruct IH as [B|B]; [intros; apply H; right; assumption| |]; tauto.
              - unfold int32. lia. }
            destruct X as [X|X].
            -- eapply opok_imp; [apply (@visit_cond_ok net L D m Hm (mem od) Hen Hfit mk (fun _ => b) Hb Hne c A1 A2 X false s I Pe)|]. intros S HS _ _ _. exact HS.
            -- eapply opok_imp; [apply (@visit_total net D m Hm (mem od) Hen Hfit mk (fun _ => b) Hb Hne c false s I Pe)|]. intros S _ _ _ Y. contradiction.
          * eapply opok_imp; [apply (@visit_total net D m Hm (mem od) Hen Hfit mk (fun _ => b) Hb Hne c false s I Pe)|]. intros S _ A1 A2. rewrite A1, A2 in Ac. discriminate.
        + exact I0.
        + exact P0.
        + rewrite E1. cbn [bind]. destruct (@closure_ok net m (mem od) (en_fails net m Hm (mem od) Hen) s1 I1 P1) as (s2 & E2 & I2 & P2 & Sb2 & H2). rewrite E2. cbn [bind].
          exists (filter (in_stub s2) od). split; [reflexivity|].
          split; [intros t Ht; apply filter_In in Ht; apply Hin; tauto|]. split; [apply NoDup_filter; exact Nd|].
          intros c Hc A1 A2 A3. destruct (Hdec c A1) as [H|H]; [left; exact H|]. right. exists (in_stub s2). split; [|split].
          * intros t Ht Hs. rewrite (ntrans_len net) in Ht. apply (closed_c_at net D m Hm (mem od) Hen); [exact Ht|]. apply H2. exact Hs.
          * intros t m' Hs St. apply filter_In. split; [eapply Hst; eauto|exact Hs].
          * intros w m' R. eapply (frozen_mono net m false c _ _ Sb2 (H1 c Hc A1 A2 A3) H); eauto.
    Qed.
  End Marking.

  Definition chosen (mk : bool) (qs : list cond) (m : marking) : list nat := match stubborn net mk qs m with Ok l => l | _ => [] end.
  Hypothesis Hpl : 0 < cn_places net.
  Hypothesis D : dirs_ok net.
  Lemma explored_length : forall sel m0 m, explored P sel m0 m -> length m = length m0.
  Proof. intros sel m0 m H. induction H as [|m t m' _ IH _ St]; [reflexivity|]. rewrite <- IH. exact (@step_length _ _ _ _ St). Qed.
  Theorem stubborn_reach : forall mk qs c m0, length m0 = cn_places net -> In c qs -> atomic c = true -> por_cond c = true ->
    (forall m, explored P (chosen mk qs) m0 m -> fits m /\ small m c) ->
    ((exists m, reachable P m0 m /\ sat P m c) <-> (exists m, explored P (chosen mk qs) m0 m /\ sat P m c)).
  Proof.
    intros mk qs c m0 L0 Hc Ha Hp Hx. pose proof (ly_wf L) as Hw. split.
    - intros (g & R & S0). pose proof (proj1 (sat_hm P g c Hw Ha) S0) as S.
      destruct (@reduced_reach P (fun m => hm P m c) (chosen mk qs) m0 Hw L0) with (g := g) as (g' & E & S'); [|exact R|exact S|].
      + intros m Em. destruct (Hx m Em) as (F & Sm). destruct (@stubborn_ok m) with (mk := mk) (qs := qs) as (l & El & _ & _ & G); auto.
        { rewrite (explored_length _ _ _ Em). exact L0. }
        unfold chosen. rewrite El. apply G; auto.
      + exists g'. split; [exact E|]. apply sat_hm; auto.
    - intros (g & E & S). exists g. split; [eapply explored_reachable; eauto|exact S].
  Qed.

  (** ** The search *)
  Definition goal_fn (c : cond) (m : list N) : bool :=
    match deadlocked net m with Ok d => match evaluate (fun _ => d) m c with RTrue => true | _ => false end | _ => false end.
  Lemma goal_fn_sat : forall m c, length m = cn_places net -> fits m -> atomic c = true -> (goal_fn c m = true <-> sat P m c).
  Proof.
    intros m c Hm Hf Ha. unfold goal_fn. destruct (@deadlocked_spec net m L Hpl Hm) as (b & -> & Hb).
    rewrite (sat_hm P m c (ly_wf L) Ha). exact (@satisfied_hm net L m Hf (fun _ => b) Hb c Ha).
  Qed.
  Lemma fits_32 : forall m, fits32 m <-> fits m.
  Proof. clear. intros m. unfold fits32, fits, u32max. split; intros H p; specialize (H p); lia. Qed.
  Lemma fire_each_stream : forall m l, fire_each net m l = fire_stream net m l.
  Proof. intros m. induction l as [|t l IH]; cbn [fire_each fire_stream]; [reflexivity|]. rewrite IH. reflexivity. Qed.
  Lemma stub_stream_ok : forall mk qs m, length m = cn_places net -> fits32 m ->
    (forall t m', In (t, m') (fst (stub_stream net mk qs m)) -> In t (chosen mk qs m) /\ step P m t m' /\ length m' = cn_places net /\ fits32 m') /\
    ((snd (stub_stream net mk qs m) = Ok tt /\ forall t m', In t (chosen mk qs m) -> step P m t m' -> In (t, m') (fst (stub_stream net mk qs m))) \/
     (snd (stub_stream net mk qs m) = Throw /\ exists t tr, nth_error (pn_trans P) t = Some tr /\ enabled tr m /\ overflows tr m)).
  Proof.
    intros mk qs m Hm Hf. destruct (@stubborn_ok m Hm Hpl D (proj1 (fits_32 m) Hf) mk qs) as (l & El & Hl & _). unfold stub_stream, chosen. rewrite El.
    rewrite fire_each_stream. destruct (@fire_stream_ok net m L Hm Hf l Hl) as (H1 & H2). split.
    - intros t m' Hi. destruct (H1 _ _ Hi) as (It & Hfi & Hno). split; [exact It|]. destruct (Hl t It) as (Ht & Hen).
      assert (St : step P m t m') by (exists (net_trans net t); split; [apply net_trans_in; exact Ht|exact Hfi]).
      split; [exact St|].
      (* sizes: as for the full generator *)
      destruct (@fire_ok net m t L Hm Hf Ht Hen) as [(_ & m2 & E2 & F2)|(Ov & _)]; [|contradiction].
      rewrite (fires_det Hfi F2) in *. clear m' Hfi Hi St.
      destruct (@fire_stream_ok net m L Hm Hf [t]) as (G1 & _); [intros u [<-|[]]; auto|].
      destruct F2 as (Fe & Hlen & Htok). split; [lia|]. intros p.
      destruct (Nat.lt_ge_cases p (length m)) as [Hp|Hp]; [|unfold tokens; rewrite nth_overflow by lia; lia].
      destruct (Htok p Hp) as (Hle & ->). assert (Hfp := Hf p).
      destruct (wf_net_trans L Ht) as (_ & Hpost & _ & Hnd).
      destruct (in_dec Nat.eq_dec p (map arc_place (tr_post (net_trans net t)))) as [Hi2|Hi2]; [|rewrite (weight_at_notin _ _ Hi2); lia].
      apply in_map_iff in Hi2. destruct Hi2 as (a & <- & Ha).
      assert (Hw : weight_at (tr_post (net_trans net t)) (arc_place a) = arc_weight a).
      { clear - Ha Hnd Hpost. induction (tr_post (net_trans net t)) as [|b l IH]; [contradiction|].
        rewrite weight_at_cons. simpl in Hnd. inversion Hnd as [|? ? Hn1 Hn2]; subst.
        destruct Ha as [->|Ha].
        - rewrite Nat.eqb_refl, (proj2 (Hpost a (or_introl eq_refl))), weight_at_notin by exact Hn1. simpl. lia.
        - destruct (Nat.eqb_spec (arc_place b) (arc_place a)) as [E|_].
          + exfalso. apply Hn1. rewrite E. apply in_map. exact Ha.
          + cbn [andb]. rewrite IH; [lia|intros; apply Hpost; right; assumption|exact Hn2|exact Ha]. }
      rewrite Hw. destruct (N.lt_ge_cases (tokens m (arc_place a) - weight_at (tr_pre (net_trans net t)) (arc_place a) + arc_weight a) (2 ^ 32 - 1)) as [Hlt|Hge]; [lia|].
      exfalso. apply Hno. exists a. auto.
    - destruct H2 as [(H2 & H3)|(H2 & t & H3 & H4)].
      + left. split; [exact H2|]. intros t m' It (tr & Hn & Hfi). apply net_trans_inv in Hn. destruct Hn as (Ht & ->).
        rewrite <- H3 in It. apply in_map_iff in It. destruct It as ((t1 & m1) & E & Hi1). cbn in E; subst t1.
        destruct (H1 _ _ Hi1) as (_ & Hf1 & _). rewrite (fires_det Hfi Hf1). exact Hi1.
      + right. split; [exact H2|]. destruct (Hl t H3) as (Ht & Hen). exists t, (net_trans net t). split; [apply net_trans_in; exact Ht|auto].
  Qed.

  Section Run.
    Variable mk : bool.
    Variable goals : list cond.
    Hypothesis HS : searchable net 0.
    Notation init := (cn_init net).
    Notation ns := (stub_stream net mk goals).
    Notation sel := (chosen mk goals).
    Lemma ob0 : forall m, over_bound 0 m = false.
    Proof. reflexivity. Qed.
    Lemma rs_mark_ok : forall m t m', mark_ok (cn_places net) m -> In (t, m') (fst (ns m)) -> mark_ok (cn_places net) m'.
    Proof.
      intros m t m' Hm Hi. apply mark_ok_fits in Hm. destruct Hm as (H1 & H2).
      destruct (@stub_stream_ok mk goals m H1 H2) as (H & _). destruct (H _ _ Hi) as (_ & _ & A & B). apply mark_ok_fits. auto.
    Qed.
    Lemma rs_explored : forall w m, swalk ns 0 init w m -> mark_ok (cn_places net) m /\ run P init w m /\ explored P sel init m.
    Proof.
      induction 1 as [Ho|w m t m' Hw (IH1 & IH2 & IH3) Hi Ho].
      - split; [exact (proj1 (proj2 (proj2 HS)))|]. split; constructor.
      - split; [eapply rs_mark_ok; eauto|]. apply mark_ok_fits in IH1. destruct IH1 as (A1 & A2).
        destruct (@stub_stream_ok mk goals m A1 A2) as (H & _). destruct (H _ _ Hi) as (C & St & _).
        split; [eapply run_snoc; eauto|eapply ex_next; eauto].
    Qed.
    Lemma explored_rs : (forall m, sreach ns 0 init m -> snd (ns m) = Ok tt) -> forall m, explored P sel init m -> sreach ns 0 init m.
    Proof.
      intros Hend m E. induction E as [|m t m' E (w & IH) It St]; [exists []; constructor; reflexivity|].
      destruct (rs_explored _ _ IH) as (A & _). apply mark_ok_fits in A. destruct A as (A1 & A2).
      destruct (@stub_stream_ok mk goals m A1 A2) as (_ & [(_ & H)|(H & _)]).
      - exists (w ++ [t]). econstructor; [exact IH|apply H; [exact It|exact St]|reflexivity].
      - rewrite (Hend m) in H by (exists w; exact IH). discriminate.
    Qed.
    Lemma rs_end : forall m, mark_ok (cn_places net) m -> snd (ns m) <> UB /\ snd (ns m) <> NoFuel.
    Proof.
      intros m Hm. apply mark_ok_fits in Hm. destruct Hm as (A1 & A2).
      destruct (@stub_stream_ok mk goals m A1 A2) as (_ & [(-> & _)|(-> & _)]); split; discriminate.
    Qed.
    Variable st : strategy.
    Variable dist : nat -> list N -> N.
    Hypothesis Hst : strategy_ok st.
    Variable inv : nat -> bool.
    Variable qst0 : list N.
    Variable heur : nat.
    Hypothesis Hqst0 : length qst0 = length goals.
    Hypothesis Hheur : heur < length goals.
    Notation handle := (fun i => printer_handle false false (inv i) None).
    Notation rs0 := (map (fun _ => Unknown) goals).
    (** ReachabilitySearch.h:117-128, with a reducing successor generator *)
    Definition reduced_search (fuel : nat) : res (sst (queue_of st) * bool) :=
      try_reach (queue_of st) (map pure_query (map goal_fn goals)) dist handle ns true fuel (cn_places net) 0 init rs0 qst0 heur.

    Lemma reduced_ok : forall fuel,
      match reduced_search fuel with
      | Ok (s, b) =>
          (forall e, In e (s_log s) -> verdict_ok (map pure_query (map goal_fn goals)) ns true (cn_places net) 0 init qst0 e) /\
          res_ok (map pure_query (map goal_fn goals)) handle rs0 s /\
          (b = true -> stopped (map pure_query (map goal_fn goals)) handle s) /\
          (b = false -> forall j, j < length goals -> nth j (s_res s) Unknown <> Unknown)
      | Throw => (exists m t tr, reachable P init m /\ nth_error (pn_trans P) t = Some tr /\ enabled tr m /\ overflows tr m) \/ 2047 < cn_places net
      | UB => is_rpfs st = true
      | NoFuel => exists l, NoDup l /\ fuel <= length l /\ forall m, In m l -> mark_ok (cn_places net) m
      end.
    Proof.
      intros fuel. destruct HS as (_ & Hplaces & Hinit & Hspace). destruct (@strategy_bag net Hplaces st Hst) as (good & content & HB).
      assert (Hsp : forall l, NoDup l -> (forall m, In m l -> sreach ns 0 init m) -> (N.of_nat (length l) <= 2 ^ 32)%N).
      { intros l Hl Hm. apply Hspace; [exact Hl|]. intros m Hi. apply kreach_0. destruct (Hm m Hi) as (w & Hw). destruct (rs_explored _ _ Hw) as (_ & R & _). exists w. exact R. }
      assert (Hh : forall i, fst (handle i Satisfied) <> Unknown) by (intros i; cbn; destruct (inv i); discriminate).
      assert (T := @try_reach_ok (queue_of st) content _ _ good HB (map pure_query (map goal_fn goals)) dist handle ns true (cn_places net) 0 init rs0 qst0
        Hplaces Hinit rs_mark_ok Hh). rewrite !map_length in T. specialize (T eq_refl Hqst0 Hsp fuel heur rs_end Hheur).
      unfold reduced_search. destruct (try_reach _ _ _ _ _ _ _ _ _ _ _ _ _) as [[s b]| | |]; auto.
      - destruct T as (T1 & T2 & T3 & T4). split; [exact T1|]. split; [exact T2|]. split; [exact T3|]. intros Eb j Hj. apply (T4 Eb j Hj). cbn. destruct (inv j); discriminate.
      - destruct T as [(m & (w & Hw) & He)|T]; [left|right; exact T]. destruct (rs_explored _ _ Hw) as (A & R & _).
        apply mark_ok_fits in A. destruct A as (A1 & A2). destruct (@stub_stream_ok mk goals m A1 A2) as (_ & [(H & _)|(_ & t & tr & H1 & H2 & H3)]); [congruence|].
        exists m, t, tr. split; [exists w; exact R|auto].
      - destruct T as (l & T1 & T2 & T3). exists l. split; [exact T1|]. split; [exact T2|]. intros m Hi. apply (T3 m Hi).
    Qed.
    Lemma reduced_terminates : exists k, forall fuel, k <= fuel -> reduced_search fuel <> NoFuel.
    Proof.
      destruct (marks_finite (cn_places net)) as (U & HU). exists (S (length U)). intros fuel Hf E.
      assert (H := reduced_ok fuel). rewrite E in H. destruct H as (l & H1 & H2 & H3).
      assert (length l <= length U) by (apply NoDup_incl_length; [exact H1|]; intros m Hm; apply HU; apply (H3 m Hm)). lia.
    Qed.
    Lemma reduced_answers : forall fuel s b, reduced_search fuel = Ok (s, b) ->
      forall i c, nth_error goals i = Some c -> atomic c = true -> por_cond c = true ->
      (forall m, reachable P init m -> small m c) ->
      (exists m, reachable P init m /\ sat P m c) /\ nth i (s_res s) Unknown = (if inv i then NotSatisfied else Satisfied) \/
      (forall m, reachable P init m -> ~ sat P m c) /\ nth i (s_res s) Unknown = (if inv i then Satisfied else NotSatisfied).
    Proof.
      intros fuel s b E i c Hc Ha Hp Hsm. assert (X := reduced_ok fuel). rewrite E in X. destruct X as (X1 & (R1 & R2 & R3) & X3 & X4).
      assert (Hil := nth_error_lt _ _ Hc).
      assert (Hr0 : nth i rs0 Unknown = Unknown).
      { clear. revert i. induction goals as [|x l IH]; intros [|i]; cbn; auto. }
      assert (Hnot : forall j r, snd (handle j r) = false) by (intros j r; destruct r; cbn; destruct (inv j); reflexivity).
      assert (Hkn : nth i (s_res s) Unknown <> Unknown).
      { destruct b; [|apply X4; auto]. destruct (X3 eq_refl) as [(j & Hs)|H]; [rewrite Hnot in Hs; discriminate|]. apply H. rewrite !map_length. exact Hil. }
      destruct (R3 i) as [Hz|(e & He & Hq & Hv)]; [congruence|]. specialize (X1 e He). unfold verdict_ok in X1. rewrite Hq in X1.
      assert (Hn : nth_error (map pure_query (map goal_fn goals)) i = Some (pure_query (goal_fn c))) by (rewrite !nth_error_map, Hc; reflexivity).
      destruct (ev_result e) eqn:Er; try contradiction.
      - left. destruct X1 as (q & pre & m & w & A1 & _ & _ & A2 & _ & A3). rewrite Hn in A1. injection A1 as <-.
        destruct (rs_explored _ _ A3) as (B1 & B2 & _). apply mark_ok_fits in B1. destruct B1 as (B1 & B3).
        split; [exists m; split; [exists w; exact B2|]|rewrite Hv; cbn; destruct (inv i); reflexivity].
        apply (goal_fn_sat m c B1 (proj1 (fits_32 m) B3) Ha). unfold pure_query in A2. congruence.
      - right. destruct X1 as (q & l & A1 & _ & A2 & A3 & A4 & _). rewrite Hn in A1. injection A1 as <-. destruct (A4 eq_refl) as (A5 & _).
        assert (Ex : forall m, explored P sel init m -> sreach ns 0 init m) by (apply explored_rs; intros m Hm; apply A3, A2; exact Hm).
        split; [|rewrite Hv; cbn; destruct (inv i); reflexivity].
        intros g Rg Sg. destruct (@stubborn_reach mk goals c init) as (T & _); auto.
        + destruct HS as (_ & _ & Hi & _). exact (proj1 Hi).
        + eapply nth_error_In; eauto.
        + intros m Em. split; [|apply Hsm; eapply explored_reachable; eauto]. destruct (Ex m Em) as (w & Hw). destruct (rs_explored _ _ Hw) as (B & _).
          apply mark_ok_fits in B. apply fits_32. exact (proj2 B).
        + destruct T as (g' & Eg & Sg'); [exists g; auto|]. pose proof (Ex g' Eg) as Hs. pose proof Hs as (w & Hw). destruct (rs_explored _ _ Hw) as (B & _).
          apply mark_ok_fits in B. destruct B as (B1 & B2). apply A2 in Hs. pose proof (nohit_pure A5 _ Hs) as F.
          apply (goal_fn_sat g' c B1 (proj1 (fits_32 g') B2) Ha) in Sg'. congruence.
    Qed.
  End Run.
End Net.
