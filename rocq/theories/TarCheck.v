(** Refuting a trace. *)
From Verif Require Import Base BaseLemmas NetSpec NetModel NetProofs PqlSyntax PqlSpec PqlModel PqlProofs RangeSpec RangeModel RangeProofs StubModel StubMain StubProofs
  QueryModel TarModel TarSpec TarVec TarSem TarRc TarAut TarHoare.
From Coq Require Import Sorted.

Section Check.
  Variable net : cnet.
  Hypothesis L : layout net.
  Hypothesis P0 : 0 < cn_places net.
  Hypothesis D : dirs_ok net.
  Hypothesis So : sorted_arcs net.
  Hypothesis NI : has_inhib net = false.
  Notation P := (to_pnet net).
  Notation np := (cn_places net).
  Notation nt := (cn_ntrans net).
  Notation pre := (in_slice net).
  Notation post := (out_slice net).
  Notation wi t p := (first_tokens (pre t) p).
  Notation wo t p := (first_tokens (post t) p).
  Notation ev := (evaluate (net_deadb net)).
  Hypothesis W32 : forall t iv, t < nt -> In iv (pre t) \/ In iv (post t) -> (iv_tokens iv <= u32max)%N.
  Hypothesis Li : length (cn_init net) = np.
  Variable query : cond.
  Variable inq : list bool.
  Notation X := (fun p => nth p inq false = true).
  Notation All := (fun _ : nat => True).
  Notation zrun := (zrun net).
  Notation zok := (zok net).
  Notation edges_ok := (edges_ok net).

  (** ** Where a trace fails *)
  Definition bad_at (tr : list nat) (j : nat) (fm : list Z) : Prop :=
    j < length tr /\ edges_ok (firstn j tr) /\ nth j tr 0 <> 0 /\ nth j tr 0 - 1 < nt /\ fm = zrun (rev (firstn j tr)) /\ zok All (rev (firstn j tr)) /\
    exists iv, In iv (pre (nth j tr 0 - 1)) /\ short fm iv = true.
  Definition failure_ok (to_end : bool) (tr : list nat) (f : failure) : Prop :=
    match f with
    | FSat => exists k, edges_ok (firstn k tr) /\ zok All (rev (firstn k tr)) /\ ev (map Z.to_N (zrun (rev (firstn k tr)))) query = RTrue
    | FTrans j fm => bad_at tr j fm
    | FQuery i mark _ => nth i tr 0 = 0 /\ edges_ok (firstn i tr) /\ mark = map Z.to_N (zrun (rev (firstn i tr))) /\ ev mark query <> RTrue /\
        (to_end = false -> zok X (rev (firstn i tr)))
    end.
  Lemma edges_rev : forall l, edges_ok l -> edges_ok (rev l).
  Proof. intros l H e I. apply H. apply in_rev. exact I. Qed.
  Lemma zok_cons : forall (Y : nat -> Prop) l t, edges_ok l -> zok Y (rev l) -> t < nt -> (forall iv, In iv (pre t) -> Y (iv_place iv) -> short (zrun (rev l)) iv = false) -> zok Y (rev (l ++ [S t])).
  Proof.
    intros Y l t El Zl Ht H. rewrite rev_app_distr. cbn [rev app]. cbn [TarHoare.zok]. split; [|exact Zl]. intros p Yp. replace (S t - 1) with t by lia.
    pose proof (zok_pos net L P0 Li Y (rev l) (edges_rev l El) Zl p Yp) as Pz. destruct (N.eq_dec (wi t p) 0) as [E|E]; [rewrite E; exact Pz|]. destruct (ft_pos (pre t) p ltac:(lia)) as (iv & Iv & Ep). subst p.
    rewrite (ft_in _ _ (pre_nodup net L t Ht) Iv). specialize (H iv Iv Yp). unfold short in H. apply Z.ltb_ge in H. exact H.
  Qed.
  Lemma ff_ok : forall to_end es pr m first f, edges_ok pr -> (forall e, In e es -> e <= nt) -> m = zrun (rev pr) ->
    match first with None => zok All (rev pr) | Some (j, fm) => bad_at (pr ++ es) j fm end -> (to_end = false -> zok X (rev pr)) ->
    find_failure net query inq to_end es (length pr) m first = Ok f -> failure_ok to_end (pr ++ es) f.
  Proof.
    intros to_end. induction es as [|e es IH]; intros pr m first f Ep He Em Hf Hx E; [discriminate|]. cbn [find_failure] in E.
    assert (F0 : firstn (length pr) (pr ++ e :: es) = pr) by (rewrite firstn_app, firstn_all, Nat.sub_diag; cbn [firstn]; apply app_nil_r).
    assert (N0 : nth (length pr) (pr ++ e :: es) 0 = e) by (rewrite app_nth2, Nat.sub_diag by lia; reflexivity).
    destruct (Nat.eqb_spec e 0) as [->|Ne].
    - assert (Hq : ev (map Z.to_N m) query <> RTrue -> failure_ok to_end (pr ++ 0 :: es) (FQuery (length pr) (map Z.to_N m) (map (fun z => (z <? 0)%Z) m))).
      { intros K. unfold failure_ok. rewrite F0, N0, <- Em. auto. }
      destruct (ev (map Z.to_N m) query) eqn:Eq; [|injection E as <-; apply Hq; congruence|injection E as <-; apply Hq; congruence].
      destruct first as [(j, fm)|]; injection E as <-; [exact Hf|]. exists (length pr). rewrite F0, <- Em. auto.
    - assert (Ht : e - 1 < nt) by (specialize (He e (or_introl eq_refl)); lia). assert (Es : e = S (e - 1)) by lia. set (bad := filter (short m) (pre (e - 1))) in *.
      set (first' := match first with Some _ => first | None => match bad with [] => None | _ => Some (length pr, m) end end) in *.
      assert (Ap : pr ++ e :: es = (pr ++ [e]) ++ es) by (rewrite <- app_assoc; reflexivity).
      assert (Bad0 : bad <> [] -> first = None -> bad_at (pr ++ e :: es) (length pr) m).
      { intros Nb ->. split; [rewrite app_length; cbn; lia|]. rewrite F0, N0. repeat (split; [assumption|]). destruct bad as [|iv b] eqn:Eb; [congruence|]. assert (I : In iv bad) by (rewrite Eb; left; reflexivity). apply filter_In in I. exists iv. exact I. }
      assert (H1 : match first' with None => zok All (rev (pr ++ [e])) | Some (j, fm) => bad_at (pr ++ e :: es) j fm end).
      { unfold first'. destruct first as [(j, fm)|]; [exact Hf|]. destruct bad as [|iv b] eqn:Eb; [|apply Bad0; congruence]. rewrite Es. apply zok_cons; auto. intros iv Iv _. rewrite <- Em. destruct (short m iv) eqn:Sh; [|reflexivity].
        assert (I : In iv (filter (short m) (pre (e - 1)))) by (apply filter_In; auto). change (filter (short m) (pre (e - 1))) with bad in I. rewrite Eb in I. destruct I. }
      destruct (negb to_end && existsb (fun iv => nth (iv_place iv) inq false) bad) eqn:Eb.
      + destruct first' as [(j, fm)|] eqn:Ef; [|discriminate]. injection E as <-. exact H1.
      + assert (El : S (length pr) = length (pr ++ [e])) by (rewrite app_length; cbn; lia). rewrite El in E. rewrite Ap. apply (IH (pr ++ [e]) (zfire net (e - 1) m) first' f); auto.
        * intros x Ix. apply in_app_or in Ix. destruct Ix as [Ix|[<-|[]]]; [apply Ep; exact Ix|split; assumption].
        * intros x Ix. apply He. right. exact Ix.
        * rewrite rev_app_distr. cbn [rev app]. cbn [TarHoare.zrun fold_right]. fold (zrun (rev pr)). rewrite <- Em. reflexivity.
        * rewrite <- Ap. exact H1.
        * intros Te. subst to_end. cbn [negb andb] in Eb. rewrite Es. apply zok_cons; auto. intros iv Iv Xv. rewrite <- Em. destruct (short m iv) eqn:Sh; [|reflexivity]. exfalso.
          assert (Ex : existsb (fun iv => nth (iv_place iv) inq false) bad = true); [|congruence]. apply existsb_exists. exists iv. split; [apply filter_In; auto|exact Xv].
  Qed.
  Definition trace_ok (tr : list nat) : Prop := (forall e, In e tr -> e <= nt) /\ forall i, S i < length tr -> nth i tr 0 <> 0.
  Lemma ff_top : forall to_end tr f, trace_ok tr -> find_failure net query inq to_end tr 0 (init_z net) None = Ok f -> failure_ok to_end tr f.
  Proof.
    intros to_end tr f (H & _) E. apply (ff_ok to_end tr [] (init_z net) None f); auto; cbn; auto. intros e [].
  Qed.

  (** ** Its cause *)
  Hypothesis Sq : separate query.
  Hypothesis Kn : known_places net inq query.
  Variable R : marking -> Prop.
  Hypothesis Rstep : forall m t m', R m -> step P m t m' -> R m'.
  Hypothesis Rlen : forall m, R m -> length m = np.
  Hypothesis Rfit : forall m, R m -> fits m.
  Hypothesis Rnz : forall m, R m -> exists p, p < np /\ tokens m p <> 0%N.
  Hypothesis Rinit : R (cn_init net).
  Notation Q := (fun m => hm P m query).
  Notation valid := (valid net R Q).
  Notation good := (good net R Q).
  Lemma term_trans_ok : forall t fm, t < nt -> (exists iv, In iv (pre t) /\ short fm iv = true) ->
    exists iv, In iv (pre t) /\ short fm iv = true /\ term_trans net inq t fm = [(iv_place iv, (0, iv_tokens iv - 1)%N)].
  Proof.
    intros t fm Ht (iv0 & I0 & S0). unfold term_trans.
    set (f := fun (pr : option (nat * range)) iv => if short fm iv && (0 <? TarModel.uses net inq (iv_place iv))%N then Some (iv_place iv, (0, iv_tokens iv - 1)%N) else pr).
    assert (G : forall l acc, (forall iv, In iv l -> In iv (pre t)) -> (acc = None \/ exists iv, In iv (pre t) /\ short fm iv = true /\ acc = Some (iv_place iv, (0, iv_tokens iv - 1)%N)) ->
      (fold_left f l acc = None /\ acc = None /\ forall iv, In iv l -> short fm iv = false) \/ exists iv, In iv (pre t) /\ short fm iv = true /\ fold_left f l acc = Some (iv_place iv, (0, iv_tokens iv - 1)%N)).
    { induction l as [|iv l IH]; intros acc Sub Ha; cbn [fold_left].
      - destruct Ha as [->|Ha]; [left; split; [reflexivity|split; [reflexivity|intros ? []]]|right; exact Ha].
      - assert (Iv : In iv (pre t)) by (apply Sub; left; reflexivity). destruct (IH (f acc iv)) as [(A & B & C)|A]; [intros x Ix; apply Sub; right; exact Ix| |left|right; exact A].
        + unfold f. destruct (short fm iv && (0 <? TarModel.uses net inq (iv_place iv))%N) eqn:E; [|exact Ha]. right. exists iv. apply andb_true_iff in E. split; [exact Iv|split; [apply E|reflexivity]].
        + split; [exact A|]. unfold f in B. replace (0 <? TarModel.uses net inq (iv_place iv))%N with true in B by (symmetry; apply N.ltb_lt; apply (uses_pre net P0 inq t iv Ht Iv)). rewrite andb_true_r in B. destruct (short fm iv) eqn:E; [discriminate|]. split; [exact B|].
          intros x [<-|Ix]; [exact E|apply C; exact Ix]. }
    destruct (G (pre t) None (fun _ H => H) (or_introl eq_refl)) as [(_ & _ & C)|(iv & A & B & E)]; [rewrite (C iv0 I0) in S0; discriminate|]. exists iv. split; [exact A|]. split; [exact B|]. unfold f in E. cbv zeta. match goal with |- match ?x with _ => _ end = _ => replace x with (Some (iv_place iv, (0%N, (iv_tokens iv - 1)%N))) by (symmetry; exact E) end. reflexivity.
  Qed.
  Lemma terminal_ok : forall to_end tr f dirty v b, trace_ok tr -> failure_ok to_end tr f -> terminal net query inq f tr dirty = Ok (v, b) ->
    okv np v /\ (b = false -> last_ok net R Q v (nth (fail_pos f) tr 0)) /\ (clean inq dirty -> b = false) /\ edges_ok (firstn (fail_pos f) tr) /\
    (to_end = false -> exists Y : nat -> Prop, within v Y /\ zok Y (rev (firstn (fail_pos f) tr)) /\ forall p, Y p -> in_range (rg v p) (Z.to_N (zget (zrun (rev (firstn (fail_pos f) tr))) p))).
  Proof.
    intros to_end tr f dirty v b Ht Hf E. destruct f as [|j fm|i mark neg]; cbn [terminal fail_pos] in *; [discriminate| |].
    - destruct Hf as (H1 & H2 & H3 & H4 & H5 & H6 & H7). injection E as <- <-. destruct (term_trans_ok _ fm H4 H7) as (iv & Iv & Sh & ->). set (t := nth j tr 0 - 1) in *.
      assert (Et : nth j tr 0 = S t) by (unfold t; lia). pose proof (W32 t iv H4 (or_introl Iv)) as Wv. unfold short in Sh. apply Z.ltb_lt in Sh. pose proof (zok_pos net L P0 Li All (rev (firstn j tr)) (edges_rev _ H2) H6 (iv_place iv) I) as Pz. rewrite H5 in Sh.
      assert (Rv : rg [(iv_place iv, (0, iv_tokens iv - 1)%N)] (iv_place iv) = (0, iv_tokens iv - 1)%N) by (apply rg_in; [repeat constructor|left; reflexivity]).
      assert (Ov : okv np [(iv_place iv, (0, iv_tokens iv - 1)%N)]).
      { split; [repeat constructor|]. split; [intros p r [[= <- <-]|[]]; eapply pre_place; eauto|]. intros p. unfold rg. cbn [lookup]. destruct (iv_place iv <? p); [cbn; lia|]. destruct (Nat.eqb _ _); cbn [snd]; [change rmax with u32max; lia|lia]. }
      split; [exact Ov|]. split; [|split; [reflexivity|split; [exact H2|]]].
      + intros _. rewrite Et. intros m m' Rm Im St. destruct (step_ft net L P0 NI m t m' St (Rlen m Rm)) as (_ & _ & En & _). specialize (En (iv_place iv)). rewrite (ft_in _ _ (pre_nodup net L t H4) Iv) in En.
        specialize (Im (iv_place iv) _ (or_introl eq_refl)). destruct Im as (_ & [Im|Im]); cbn [snd] in Im; [change infinite with u32max in Im|]; lia.
      + intros _. exists All. split; [intros ? ? ?; exact I|]. split; [exact H6|]. intros p _. destruct (Nat.eq_dec p (iv_place iv)) as [->|Np]; [rewrite Rv; split; cbn [fst snd]; [lia|right; lia]|].
        rewrite rg_out; [apply full_in|repeat constructor|]. intros [K|[]]. cbn in K. congruence.
    - destruct Hf as (H1 & H2 & H3 & H4 & H5). destruct (TarModel.rc net inq mark dirty query []) as [(w, c)| | |] eqn:Er; cbn [bind] in E; try discriminate.
      assert (Lm : length mark = np) by (rewrite H3, map_length; apply zrun_len; auto; apply edges_rev; exact H2).
      destruct (rc_ok net L P0 NI inq mark Lm dirty query Sq Kn [] w c (okv_nil np) (within_nil _)) as ((A1 & A2 & A3 & A4 & A5) & B & C); [intros ? ? []|intros; apply rg_nil|exact H4|exact Er|].
      assert (G : okv np v /\ b = c /\ within v X /\ (forall m, in_vec v m <-> in_vec w m)).
      { cbn [fst snd] in E. destruct c; injection E as <- <-; [repeat (split; [assumption || reflexivity|]); tauto|]. split; [apply okv_compact; exact A1|]. split; [reflexivity|]. split; [apply within_compact; exact A2|]. intros m. apply compact_ok. }
      destruct G as (G1 & -> & G2 & G3). split; [exact G1|]. split; [|split; [exact C|split; [exact H2|]]].
      + intros Hc. rewrite H1. intros m Rm Im. apply (B Hc); [apply Rlen; exact Rm|apply Rfit; exact Rm|apply G3; exact Im].
      + intros Te. exists X. split; [exact G2|]. split; [apply H5; exact Te|]. intros p _. rewrite <- to_get, <- H3. apply in_vec_rg; [apply G1|]. apply G3. exact A3.
  Qed.

  (** ** The interpolants *)
  Lemma ranges_ok : forall to_end tr f dirty v b h ds g, trace_ok tr -> failure_ok to_end tr f -> terminal net query inq f tr dirty = Ok (v, b) -> ranges_of net tr f v = Ok (h, ds, g) ->
    (b = false -> g = true -> valid h) /\ (to_end = false -> g = true).
  Proof.
    intros to_end tr f dirty v b h ds g Ht Hf E Eh. destruct (terminal_ok to_end tr f dirty v b Ht Hf E) as (A & B & _ & C & F). unfold ranges_of in Eh. pose proof (edges_rev _ C) as C'. split.
    - intros Hb ->. apply (hoare_sound net L P0 D So NI Li R Rstep Rlen Rfit Q _ _ _ _ _ _ C' A) in Eh; [exact Eh|]. cbn [TarAut.valid]. auto.
    - intros Te. destruct (F Te) as (Y & F1 & F2 & F3). eapply (hoare_complete net L P0 D So NI W32 Li Y); eauto.
  Qed.
  Lemma check_last_ok : forall tr T T', trace_ok tr -> good T -> check_last net query inq tr T = Ok T' -> good T'.
  Proof.
    intros tr T T' Ht G E. unfold check_last in E. destruct (find_failure net query inq false tr 0 (init_z net) None) as [f| | |] eqn:Ef; cbn [bind] in E; try discriminate. apply ff_top in Ef; [|exact Ht].
    destruct (terminal net query inq f tr (repeat false np)) as [(v, b)| | |] eqn:Et; cbn [bind] in E; try discriminate. cbn [fst] in E. destruct (ranges_of net tr f v) as [((h, ds), g)| | |] eqn:Eh; cbn [bind] in E; try discriminate. cbn [fst] in E. injection E as <-.
    destruct (terminal_ok false tr f _ v b Ht Ef Et) as (_ & _ & C & _). destruct (ranges_ok false tr f _ v b h ds g Ht Ef Et Eh) as (A & B). apply (add_trace_good net L P0 NI R Rstep Rlen Rfit Rnz Q); [exact G|]. apply A; [|apply B; reflexivity].
    apply C. intros p _. unfold is_dirty. destruct (Nat.lt_ge_cases p np); [apply nth_repeat|apply nth_overflow; rewrite repeat_length; assumption].
  Qed.
  Lemma check_loop_ok : forall fuel tr ok dirty T T', trace_ok tr -> good T -> check_loop net query inq fuel tr ok dirty T = Ok T' -> good T'.
  Proof.
    induction fuel as [|k IH]; intros tr ok dirty T T' Ht G E; [discriminate|]. cbn [check_loop] in E. destruct (find_failure net query inq true tr 0 (init_z net) None) as [f| | |] eqn:Ef; cbn [bind] in E; try discriminate. apply ff_top in Ef; [|exact Ht].
    destruct (negb ok); [injection E as <-; exact G|]. destruct (terminal net query inq f tr (note_neg f dirty)) as [(v, b)| | |] eqn:Et; cbn [bind] in E; try discriminate. cbn [fst snd] in E. destruct b; [apply (check_last_ok tr T T' Ht G E)|].
    destruct (ranges_of net tr f v) as [((h, ds), g)| | |] eqn:Eh; cbn [bind] in E; try discriminate. cbn [fst snd] in E. set (T1 := if g then add_trace net T h else T) in *.
    assert (G1 : good T1). { unfold T1. destruct g; [|exact G]. apply (add_trace_good net L P0 NI R Rstep Rlen Rfit Rnz Q); [exact G|]. destruct (ranges_ok true tr f _ v false h ds true Ht Ef Et Eh) as (A & _). apply A; reflexivity. }
    destruct (g && negb (fail_pos f =? length tr - 1)); [injection E as <-; exact G1|]. destruct (existsb _ _); [eapply IH; eassumption|eapply check_last_ok; eassumption].
  Qed.
  Hypothesis Fr : forall tr i, trace_ok tr -> find_free net query inq tr = Ok (Some i) -> valid i.
  Lemma check_ok : forall tr T b T', trace_ok tr -> good T -> check net query inq tr T = Ok (b, T') ->
    good T' /\ (b = true -> exists m, reachable P (cn_init net) m /\ length m = np /\ ev m query = RTrue).
  Proof.
    intros tr T b T' Ht G E. unfold check in E. destruct (find_free net query inq tr) as [fr| | |] eqn:Ex; cbn [bind] in E; try discriminate. set (T0 := match fr with Some i => add_trace net T i | None => T end) in *.
    assert (G0 : good T0). { unfold T0. destruct fr as [i|]; [|exact G]. apply (add_trace_good net L P0 NI R Rstep Rlen Rfit Rnz Q); [exact G|]. apply (Fr tr i Ht Ex). }
    destruct (find_failure net query inq true tr 0 (init_z net) None) as [f| | |] eqn:Ef; cbn [bind] in E; try discriminate. apply ff_top in Ef; [|exact Ht].
    assert (Neg : forall f', f = f' -> f' <> FSat -> (x <- terminal net query inq f tr (note_neg f (repeat false np)) ;;
      if snd x then r <- check_loop net query inq (S np) tr false (note_neg f (repeat false np)) T0 ;; Ok (false, r)
      else h <- ranges_of net tr f (fst x) ;; r <- check_loop net query inq (S (S np)) tr true (set_dirty (note_neg f (repeat false np)) (snd (fst h))) (if snd h then add_trace net T0 (fst (fst h)) else T0) ;; Ok (false, r)) = Ok (b, T') -> good T' /\ (b = true -> exists m, reachable P (cn_init net) m /\ length m = np /\ ev m query = RTrue)).
    { intros f' _ _ E'. destruct (terminal net query inq f tr (note_neg f (repeat false np))) as [(v, c)| | |] eqn:Et; cbn [bind] in E'; try discriminate. cbn [fst snd] in E'. destruct c.
      - destruct (check_loop net query inq (S np) tr false (note_neg f (repeat false np)) T0) as [r| | |] eqn:El; cbn [bind] in E'; try discriminate. injection E' as <- <-. split; [eapply check_loop_ok; eassumption|discriminate].
      - destruct (ranges_of net tr f v) as [((h, ds), g)| | |] eqn:Eh; cbn [bind] in E'; try discriminate. cbn [fst snd] in E'. set (T1 := if g then add_trace net T0 h else T0) in *.
        assert (G1 : good T1). { unfold T1. destruct g; [|exact G0]. apply (add_trace_good net L P0 NI R Rstep Rlen Rfit Rnz Q); [exact G0|]. destruct (ranges_ok true tr f _ v false h ds true Ht Ef Et Eh) as (A & _). apply A; reflexivity. }
        destruct (check_loop net query inq (S (S np)) tr true (set_dirty (note_neg f (repeat false np)) ds) T1) as [r| | |] eqn:El; cbn [bind] in E'; try discriminate. injection E' as <- <-. split; [eapply check_loop_ok; eassumption|discriminate]. }
    destruct f as [|j fm|i mark neg]; [|eapply Neg; [reflexivity|discriminate|exact E]|eapply Neg; [reflexivity|discriminate|exact E]].
    injection E as <- <-. split; [exact G0|]. intros _. destruct Ef as (k & A & B & C). exists (map Z.to_N (zrun (rev (firstn k tr)))). split; [apply (zok_reach net L P0 NI Li); [apply edges_rev; exact A|exact B]|]. split; [|exact C].
    rewrite map_length. apply zrun_len; auto. apply edges_rev. exact A.
  Qed.
End Check.
