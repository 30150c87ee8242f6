(** The product of net and automaton, and the successor enumeration as a set. *)
From Verif Require Import Base NetSpec LtlSpec LtlModel PqlRuns.
Set Implicit Arguments.

Lemma meqb_spec : forall a b, reflect (a = b) (meqb a b).
Proof.
  induction a as [|x a IH]; intros [|y b]; cbn; try (constructor; congruence).
  destruct (N.eqb_spec x y) as [E|E]; cbn; [|constructor; congruence].
  destruct (IH b) as [F|F]; constructor; congruence.
Qed.
Lemma peqb_spec : forall a b, reflect (a = b) (peqb a b).
Proof.
  intros [m q] [m' q']. unfold peqb. cbn [fst snd].
  destruct (Nat.eqb_spec q q') as [E|E]; cbn; [|constructor; congruence].
  destruct (meqb_spec m m') as [F|F]; constructor; congruence.
Qed.
Lemma pmem_spec : forall s l, reflect (In s l) (pmem s l).
Proof.
  intros s l. unfold pmem. apply iff_reflect. rewrite existsb_exists. split.
  - intros H. exists s. split; [exact H|]. destruct (peqb_spec s s); [reflexivity|contradiction].
  - intros (x & Hx & E). destruct (peqb_spec s x); [subst; exact Hx|discriminate].
Qed.
Lemma padd_in : forall s x l, In x (padd s l) <-> x = s \/ In x l.
Proof.
  intros s x l. unfold padd. destruct (pmem_spec s l) as [H|H]; cbn; [|intuition congruence].
  split; [intros A; right; exact A|intros [A|A]; [subst; exact H|exact A]].
Qed.
Definition peq_dec (a b : pstate) : {a = b} + {a <> b}.
Proof. destruct (peqb_spec a b); [left|right]; assumption. Defined.

Lemma guard_valid_gholds : forall ap m g, guard_valid ap m g = true <-> gholds ap g m.
Proof.
  intros ap m g. induction g as [| |v lo IHl hi IHh]; cbn; [intuition congruence|tauto|].
  destruct (ap v m); rewrite ?IHl, ?IHh; intuition congruence.
Qed.

Section Prod.
  Variable net : pnet.
  Variable m0 : marking.
  Variable aut : buchi.
  Variable order : nat -> marking -> nat -> list (nat * marking) * res unit.
  Variable kbound : N.
  Hypothesis net_wf : wf_pnet net.
  Hypothesis order_ok : forall k m q, reachable net m0 m ->
    (forall t m', In (t, m') (fst (order k m q)) -> step net m t m') /\
    (snd (order k m q) = Throw \/
     snd (order k m q) = Ok tt /\ forall t m', step net m t m' -> In (t, m') (fst (order k m q))).

  Notation inb := (inb kbound).
  Notation edges := (ba_edges aut).

  (** One step of a maximal run. *)
  Definition mstep (m m' : marking) : Prop := (exists t, step net m t m') \/ (dead net m /\ m' = m).
  (** Edges of the product. *)
  Definition psucc (s s' : pstate) : Prop :=
    mstep (fst s) (fst s') /\
    exists g, In (g, snd s') (edges (snd s)) /\ gholds (ba_ap aut) g (fst s').

  Lemma no_step_dead : forall m, (forall t m', ~ step net m t m') -> dead net m.
  Proof.
    intros m H t tr Ht En. apply (H t (fire_fun tr m)). exists tr. split; [exact Ht|].
    apply fire_fun_fires; [|exact En]. apply net_wf. exact (nth_error_In _ _ Ht).
  Qed.

  Definition valid (m : marking) (l : list (bdd * nat)) : list nat :=
    map snd (filter (fun e => guard_valid (ba_ap aut) m (fst e)) l).
  Definition mlist (q : nat) (l : list (nat * marking)) : list pstate :=
    flat_map (fun tm => map (pair (snd tm)) (valid (snd tm) (edges q))) l.

  Lemma valid_in : forall m l q, In q (valid m l) <-> exists g, In (g, q) l /\ gholds (ba_ap aut) g m.
  Proof.
    intros m l q. unfold valid. rewrite in_map_iff. split.
    - intros ([g x] & E & H). cbn in E. subst x. apply filter_In in H. exists g. rewrite <- guard_valid_gholds. exact H.
    - intros (g & H & G). exists (g, q). split; [reflexivity|]. apply filter_In. split; [exact H|]. apply guard_valid_gholds. exact G.
  Qed.
  Lemma mlist_in : forall q l s, In s (mlist q l) <-> exists t, In (t, fst s) l /\ In (snd s) (valid (fst s) (edges q)).
  Proof.
    intros q l [m q']. unfold mlist. rewrite in_flat_map. cbn [fst snd]. split.
    - intros ([t m'] & H & K). cbn [snd] in K. apply in_map_iff in K. destruct K as (x & E & K). injection E as -> ->. exists t. split; assumption.
    - intros (t & H & K). exists (t, m). split; [exact H|]. apply in_map_iff. exists q'. split; [reflexivity|exact K].
  Qed.

  Lemma next_buchi_valid : forall m l, next_buchi aut m l = match valid m l with [] => None | q :: _ => Some q end.
  Proof.
    intros m l. induction l as [|[g q] l IH]; [reflexivity|]. unfold valid in *. cbn.
    destruct (guard_valid (ba_ap aut) m g); [reflexivity|exact IH].
  Qed.
  (** Spooling up to the state just found leaves at least the further valid edges. *)
  Lemma next_buchi_spool : forall m l b, next_buchi aut m l = Some b ->
    forall q, In q (valid m l) -> q = b \/ In q (valid m (spool b l)).
  Proof.
    intros m l b. induction l as [|[g x] l IH]; [discriminate|]. cbn. intros E q Hq.
    destruct (guard_valid (ba_ap aut) m g) eqn:G.
    - injection E as ->. rewrite Nat.eqb_refl. unfold valid in Hq. cbn in Hq. rewrite ?G in Hq. destruct Hq as [<-|Hq]; [left; reflexivity|right; exact Hq].
    - assert (Hq' : In q (valid m l)) by (unfold valid in Hq; cbn in Hq; rewrite ?G in Hq; exact Hq).
      destruct (Nat.eqb_spec x b) as [->|N]; [right; exact Hq'|exact (IH E q Hq')].
  Qed.
  Lemma spool_incl : forall b l e, In e (spool b l) -> In e l.
  Proof.
    intros b l e. induction l as [|[g x] l IH]; [intros []|]. cbn. destruct (Nat.eqb x b); [intros H; right; exact H|intros H; right; exact (IH H)].
  Qed.
  Lemma valid_spool_incl : forall b l m q, In q (valid m (spool b l)) -> In q (valid m l).
  Proof. intros b l m q H. apply valid_in in H. apply valid_in. destruct H as (g & H & G). exists g. split; [exact (spool_incl _ _ _ H)|exact G]. Qed.
  Lemma next_buchi_spool2 : forall m l b c, next_buchi aut m (spool b l) = Some c ->
    forall q, In q (valid m (spool b l)) -> q = c \/ In q (valid m (spool c l)).
  Proof.
    intros m l b c. induction l as [|[g x] l IH]; [discriminate|]. cbn.
    destruct (Nat.eqb_spec x b) as [->|N].
    - intros E q Hq. destruct (next_buchi_spool _ _ E _ Hq) as [A|A]; [left; exact A|].
      destruct (Nat.eqb b c); [right; exact Hq|right; exact A].
    - intros E q Hq. destruct (IH E q Hq) as [A|A]; [left; exact A|].
      destruct (Nat.eqb x c); [right; exact (valid_spool_incl _ _ _ _ Hq)|right; exact A].
  Qed.

  (** What is still to be handed out. *)
  Definition last_mark (si : sinfo) (w : pstate) : marking :=
    fst (match si_last si with Some l => l | None => w end).
  Definition pend (s : pstate) (si : sinfo) (w : pstate) : list pstate :=
    match si_queue si, si_buchi si with
    | Some (l, _), Some b =>
      map (pair (last_mark si w)) (valid (last_mark si w) (spool b (edges (snd s)))) ++ mlist (snd s) l
    | _, _ => []
    end.

  (** A stack entry: every successor within the bound is done or still to come. *)
  Definition going (s : pstate) (si : sinfo) (w : pstate) (done : pstate -> Prop) : Prop :=
    exists l stop b, si_queue si = Some (l, stop) /\ si_buchi si = Some b /\
      mstep (fst s) (last_mark si w) /\
      (forall t m', In (t, m') l -> step net (fst s) t m') /\
      (stop = Throw \/ stop = Ok tt /\
       forall s', psucc s s' -> inb (fst s') = true -> done s' \/ In s' (pend s si w)).
  Definition einv (s : pstate) (si : sinfo) (w : pstate) (done : pstate -> Prop) : Prop :=
    si = si_init \/ going s si w done.

  Lemma going_stable : forall s si w w' done, si_last si <> None -> going s si w done -> going s si w' done.
  Proof.
    intros s si w w' done Hl (l & stop & b & E1 & E2 & Hm & Hs & Hc). exists l, stop, b.
    assert (EL : last_mark si w' = last_mark si w) by (unfold last_mark; destruct (si_last si); [reflexivity|contradiction]).
    assert (EP : pend s si w' = pend s si w) by (unfold pend; rewrite EL; reflexivity).
    rewrite EL, EP. repeat (split; [assumption|]). assumption.
  Qed.
  Lemma going_mono : forall s si w (d d' : pstate -> Prop), (forall x, d x -> d' x) -> going s si w d -> going s si w d'.
  Proof.
    intros s si w d d' H (l & stop & b & E1 & E2 & Hm & Hs & Hc). exists l, stop, b. repeat (split; [assumption|]).
    destruct Hc as [Hc|(Hc & Hd)]; [left; exact Hc|right; split; [exact Hc|]]. intros s' A B. destruct (Hd s' A B); [left; apply H; assumption|right; assumption].
  Qed.
  Lemma einv_mono : forall s si w (d d' : pstate -> Prop), (forall x, d x -> d' x) -> einv s si w d -> einv s si w d'.
  Proof. intros s si w d d' H [E|G]; [left; exact E|right; eapply going_mono; eassumption]. Qed.

  (** The result of one call. *)
  Definition nextres (s : pstate) (done : pstate -> Prop) (r : res (bool * pstate * sinfo)) : Prop :=
    match r with
    | Ok (true, w', si') =>
        psucc s w' /\ si_last (set_last si' w') <> None /\
        (inb (fst w') = true -> going s (set_last si' w') w' (fun x => x = w' \/ done x)) /\
        (inb (fst w') = false -> going s si' w' done)
    | Ok (false, _, _) => forall s', psucc s s' -> inb (fst s') = true -> done s'
    | Throw => True
    | _ => False
    end.

  Section Call.
    Variables (s : pstate) (done : pstate -> Prop).
    Hypothesis Hreach : reachable net m0 (fst s).

    (** A successor with marking [m'] is found at the head of the remaining markings. *)
    Lemma found_new : forall (si : sinfo) t m' r stop q',
      step net (fst s) t m' -> (forall t x, In (t, x) r -> step net (fst s) t x) ->
      next_buchi aut m' (edges (snd s)) = Some q' ->
      (stop = Throw \/ stop = Ok tt /\ forall s', psucc s s' -> inb (fst s') = true -> done s' \/ In s' (mlist (snd s) ((t, m') :: r))) ->
      (match si_last si with None => True | Some l => mstep (fst s) (fst l) end) ->
      nextres s done (Ok (true, (m', q'), mkSI (Some (r, stop)) (Some q') (si_last si) (Some t))).
    Proof.
      intros si t m' r stop q' Hst Hr Hn Hc Hlast.
      assert (Hv : In q' (valid m' (edges (snd s)))).
      { rewrite next_buchi_valid in Hn. destruct (valid m' (edges (snd s))); [discriminate|]. injection Hn as ->. left; reflexivity. }
      assert (Hps : psucc s (m', q')).
      { split; [left; exists t; exact Hst|]. apply valid_in in Hv. exact Hv. }
      cbn [nextres]. split; [exact Hps|]. split; [cbn; discriminate|]. split; intros Hb.
      - exists r, stop, q'. cbn [set_last si_queue si_buchi]. split; [reflexivity|]. split; [reflexivity|].
        split; [exact (proj1 Hps)|]. split; [exact Hr|].
        destruct Hc as [Hc|(Hc & Hd)]; [left; exact Hc|right; split; [exact Hc|]]. intros s' A B.
        destruct (Hd s' A B) as [D|D]; [left; right; exact D|].
        unfold mlist in D. cbn [flat_map] in D. apply in_app_or in D. destruct D as [D|D].
        + apply in_map_iff in D. destruct D as (x & E & D). cbn [snd] in *. subst s'.
          destruct (next_buchi_spool _ _ Hn _ D) as [->|K]; [left; left; reflexivity|right].
          unfold pend. cbn. apply in_or_app. left. apply in_map. exact K.
        + right. unfold pend. cbn. apply in_or_app. right. exact D.
      - exists r, stop, q'. cbn [si_queue si_buchi]. split; [reflexivity|]. split; [reflexivity|].
        split.
        { unfold last_mark. cbn [si_last]. destruct (si_last si) as [l|]; [exact Hlast|exact (proj1 Hps)]. }
        split; [exact Hr|].
        destruct Hc as [Hc|(Hc & Hd)]; [left; exact Hc|right; split; [exact Hc|]]. intros s' A B.
        destruct (Hd s' A B) as [D|D]; [left; exact D|].
        unfold mlist in D. cbn [flat_map] in D. apply in_app_or in D. destruct D as [D|D].
        + apply in_map_iff in D. destruct D as (x & E & D). cbn [snd] in *. subst s'. cbn in B, Hb. congruence.
        + right. unfold pend. cbn. apply in_or_app. right. exact D.
    Qed.

    Lemma next_mark_ok : forall l stop w si,
      (forall t x, In (t, x) l -> step net (fst s) t x) ->
      (stop = Throw \/ stop = Ok tt /\ forall s', psucc s s' -> inb (fst s') = true -> done s' \/ In s' (mlist (snd s) l)) ->
      (match si_last si with None => True | Some l => mstep (fst s) (fst l) end) ->
      nextres s done (next_mark aut (snd s) l stop w si).
    Proof.
      induction l as [|[t m'] l IH]; intros stop w si Hl Hc Hlast.
      - cbn. destruct Hc as [->|(-> & Hd)]; [exact I|]. cbn. intros s' A B. destruct (Hd s' A B) as [D|[]]. exact D.
      - cbn [next_mark]. destruct (next_buchi aut m' (edges (snd s))) as [q'|] eqn:E.
        + apply found_new; try assumption; [apply Hl; left; reflexivity|intros t' x Hx; apply Hl; right; exact Hx].
        + apply IH; [intros t' x Hx; apply Hl; right; exact Hx| |exact Hlast].
          destruct Hc as [Hc|(Hc & Hd)]; [left; exact Hc|right; split; [exact Hc|]]. intros s' A B.
          destruct (Hd s' A B) as [D|D]; [left; exact D|right].
          unfold mlist in D. cbn [flat_map] in D. apply in_app_or in D. destruct D as [D|D]; [|exact D].
          rewrite next_buchi_valid in E. cbn [snd] in D. destruct (valid m' (edges (snd s))); [destruct D|discriminate].
    Qed.

    Lemma prod_next_ok : forall k w si, einv s si w done -> nextres s done (prod_next aut order k s w si).
    Proof.
      intros k w si [->|G].
      - unfold prod_next. cbn [si_queue si_init si_last si_fresh si_buchi].
        destruct (order_ok k (snd s) Hreach) as (O1 & O2). destruct (order k (fst s) (snd s)) as [l stop]. cbn [fst snd] in *.
        destruct l as [|[t m'] r].
        + destruct O2 as [->|(-> & O2)]; [exact I|]. cbn.
          assert (Hd : dead net (fst s)) by (apply no_step_dead; intros t m' H; exact (O2 _ _ H)).
          assert (Hcov : forall s', psucc s s' -> fst s' = fst s /\ In (snd s') (valid (fst s) (edges (snd s)))).
          { intros s' [[(t & A)|(_ & A)] B]; [destruct (O2 _ _ A)|]. split; [exact A|]. apply valid_in. rewrite A in B. exact B. }
          destruct (next_buchi aut (fst s) (edges (snd s))) as [q'|] eqn:E.
          * assert (Hv : In q' (valid (fst s) (edges (snd s)))).
            { rewrite next_buchi_valid in E. destruct (valid (fst s) (edges (snd s))); [discriminate|]. injection E as ->. left; reflexivity. }
            assert (Hps : psucc s (fst s, q')).
            { split; [right; split; [exact Hd|reflexivity]|]. apply valid_in in Hv. exact Hv. }
            assert (Hgo : forall si' (D : pstate -> Prop), si_queue si' = Some ([], Ok tt) -> si_buchi si' = Some q' -> last_mark si' (fst s, q') = fst s ->
                      ((forall x, done x -> D x) /\ (D (fst s, q') \/ inb (fst s) = false)) -> going s si' (fst s, q') D).
            { intros si' D A1 A2 A3 (A4 & A5). exists [], (Ok tt), q'. split; [exact A1|]. split; [exact A2|].
              split; [rewrite A3; exact (proj1 Hps)|]. split; [intros t m' []|]. right. split; [reflexivity|]. intros s' Hs' Hb.
              destruct (Hcov s' Hs') as (F1 & F2). destruct s' as [x y]. cbn [fst snd] in *. subst x.
              destruct (next_buchi_spool _ _ E _ F2) as [->|K].
              - left. destruct A5 as [A5|A5]; [exact A5|congruence].
              - right. unfold pend. rewrite A1, A2, A3. apply in_or_app. left. apply in_map. exact K. }
            cbn [nextres]. split; [exact Hps|]. split; [cbn; discriminate|]. split; intros Hb.
            -- apply Hgo; try reflexivity. split; [intros x Hx; right; exact Hx|left; left; reflexivity].
            -- apply Hgo; try reflexivity. split; [intros x Hx; exact Hx|right; exact Hb].
          * cbn. intros s' Hs' Hb. destruct (Hcov s' Hs') as (F1 & F2). rewrite next_buchi_valid in E. destruct (valid (fst s) (edges (snd s))); [destruct F2|discriminate].
        + assert (Hc : stop = Throw \/ stop = Ok tt /\ forall s', psucc s s' -> inb (fst s') = true -> done s' \/ In s' (mlist (snd s) ((t, m') :: r))).
          { destruct O2 as [->|(-> & O2)]; [left; reflexivity|right; split; [reflexivity|]]. intros s' (A & B) _. right.
            destruct A as [(u & A)|(A & _)].
            - apply mlist_in. exists u. split; [exact (O2 _ _ A)|]. apply valid_in. exact B.
            - exfalso. destruct (O1 t m' (or_introl eq_refl)) as (tr & T1 & T2 & _). exact (A _ _ T1 T2). }
          destruct (next_buchi aut m' (edges (snd s))) as [q'|] eqn:E.
          * cbn. apply (@found_new si_init); try assumption; [apply O1; left; reflexivity|intros t' x Hx; apply O1; right; exact Hx|exact I].
          * apply next_mark_ok; [intros t' x Hx; apply O1; right; exact Hx| |exact I].
            destruct Hc as [Hc|(Hc & Hd)]; [left; exact Hc|right; split; [exact Hc|]]. intros s' A B.
            destruct (Hd s' A B) as [D|D]; [left; exact D|right].
            unfold mlist in D. cbn [flat_map] in D. apply in_app_or in D. destruct D as [D|D]; [|exact D].
            rewrite next_buchi_valid in E. cbn [snd] in D. destruct (valid m' (edges (snd s))); [destruct D|discriminate].
      - destruct G as (l & stop & b & E1 & E2 & Hm & Hs & Hc). unfold prod_next, si_fresh. rewrite E1, E2. cbn [fst snd].
        set (w1 := match si_last si with Some l0 => l0 | None => w end).
        assert (EL : last_mark si w = fst w1) by reflexivity.
        assert (Hlast : match si_last si with None => True | Some l => mstep (fst s) (fst l) end).
        { unfold last_mark in Hm. destruct (si_last si); [exact Hm|exact I]. }
        unfold pend in Hc. rewrite E1, E2, EL in Hc. rewrite EL in Hm.
        destruct (next_buchi aut (fst w1) (spool b (edges (snd s)))) as [q'|] eqn:E.
        + assert (Hv : In q' (valid (fst w1) (edges (snd s)))).
          { apply (valid_spool_incl b). rewrite next_buchi_valid in E. destruct (valid (fst w1) (spool b (edges (snd s)))); [discriminate|]. injection E as ->. left; reflexivity. }
          assert (Hps : psucc s (fst w1, q')).
          { split; [exact Hm|]. apply valid_in in Hv. exact Hv. }
          assert (Hgo : forall si' (D : pstate -> Prop), si_queue si' = Some (l, stop) -> si_buchi si' = Some q' -> last_mark si' (fst w1, q') = fst w1 ->
                    (forall x, done x -> D x) -> (D (fst w1, q') \/ inb (fst w1) = false) -> going s si' (fst w1, q') D).
          { intros si' D A1 A2 A3 A4 A5. exists l, stop, q'. split; [exact A1|]. split; [exact A2|].
            split; [rewrite A3; exact Hm|]. split; [exact Hs|].
            destruct Hc as [Hc|(Hc & Hd)]; [left; exact Hc|right; split; [exact Hc|]]. intros s' A B.
            destruct (Hd s' A B) as [F|F]; [left; exact (A4 _ F)|]. apply in_app_or in F. destruct F as [F|F].
            - apply in_map_iff in F. destruct F as (x & <- & F). destruct (next_buchi_spool2 _ _ _ E _ F) as [->|K].
              + left. destruct A5 as [A5|A5]; [exact A5|cbn in B; congruence].
              + right. unfold pend. rewrite A1, A2, A3. apply in_or_app. left. apply in_map. exact K.
            - right. unfold pend. rewrite A1, A2, A3. apply in_or_app. right. exact F. }
          cbn [nextres]. split; [exact Hps|]. split; [cbn; discriminate|]. split; intros Hb.
          * apply Hgo; try reflexivity; [intros x Hx; right; exact Hx|left; left; reflexivity].
          * apply Hgo; try reflexivity; [|intros x Hx; exact Hx|right; exact Hb].
            unfold last_mark. cbn [si_last]. unfold w1. destruct (si_last si); reflexivity.
        + apply next_mark_ok; [exact Hs| |exact Hlast].
          destruct Hc as [Hc|(Hc & Hd)]; [left; exact Hc|right; split; [exact Hc|]]. intros s' A B.
          destruct (Hd s' A B) as [F|F]; [left; exact F|right]. apply in_app_or in F. destruct F as [F|F]; [|exact F].
          rewrite next_buchi_valid in E. destruct (valid (fst w1) (spool b (edges (snd s)))); [destruct F|discriminate].
    Qed.
  End Call.
End Prod.
