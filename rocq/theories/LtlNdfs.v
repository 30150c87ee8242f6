(** The nested depth-first search finds an accepting cycle exactly when there is one. *)
From Verif Require Import Base NetSpec LtlSpec LtlModel PqlRuns LtlProd LtlGraph.
Set Implicit Arguments.

Section Ndfs.
  Variable net : pnet.
  Variable m0 : marking.
  Variable aut : buchi.
  Variable order : nat -> marking -> nat -> list (nat * marking) * res unit.
  Variable kbound : N.
  Hypothesis net_wf : wf_pnet net.
  Hypothesis order_ok : forall k m q, reachable net m0 m ->
    (forall t m', In (t, m') (fst (order k m q)) -> step net m t m') /\
    (snd (order k m q) = Throw \/
     snd (order k m q) = Ok tt /\ forall t m', step net m t m' -> In (t, m') (fst (order k m q))).

  Notation inb := (inb kbound).
  Notation bsucc := (bsucc net aut kbound).
  Notation ppath := (ppath net aut kbound).
  Notation cyc := (cyc net aut kbound).
  Notation ireach := (ireach net m0 aut kbound).
  Notation einv := (einv net aut kbound).
  Notation sok := (sok net aut kbound).
  Notation chain := (chain net aut kbound).
  Notation inner := (inner aut order kbound).
  Notation outer := (outer aut order kbound).

  Lemma call_ok : forall s done k w si, reachable net m0 (fst s) -> einv s si w done ->
    nextres net aut kbound s done (prod_next aut order k s w si).
  Proof. intros s done k w si Hr He. eapply prod_next_ok; eassumption. Qed.

  Definition onstack (s : pstate) (todo : list entry) : Prop := In s (map fst todo).

  (** ** The inner search *)
  Record IInv (R0 M1 S0 : list pstate) (seed : pstate) (st : nst) (w : pstate) (todo : list entry) : Prop := {
    ii_sok : sok w (fun x => In x (n_m2 st)) todo;
    ii_ent : forall e, In e todo -> ireach (fst e) /\ ppath seed (fst e) /\ (fst e = seed \/ In (fst e) (n_m2 st));
    ii_old : forall x, In x R0 -> In x (n_m2 st);
    ii_new : forall x, In x (n_m2 st) -> In x R0 \/ exists y, bsucc seed y /\ ppath y x;
    ii_fin : forall x, x = seed \/ In x (n_m2 st) -> onstack x todo \/ (forall y, bsucc x y -> In y (n_m2 st));
    ii_seed : ~ In seed (n_m2 st);
    ii_m1 : n_m1 st = M1;
    ii_seen : forall x, In x (n_seen st) -> In x S0 \/ In x (n_m2 st);
    ii_seen0 : forall x, In x S0 -> In x (n_seen st)
  }.

  Arguments ii_sok {R0 M1 S0 seed st w todo} _.
  Arguments ii_ent {R0 M1 S0 seed st w todo} _ e _.
  Arguments ii_old {R0 M1 S0 seed st w todo} _ x _.
  Arguments ii_new {R0 M1 S0 seed st w todo} _ x _.
  Arguments ii_fin {R0 M1 S0 seed st w todo} _ x _.
  Arguments ii_seed {R0 M1 S0 seed st w todo} _ _.
  Arguments ii_m1 {R0 M1 S0 seed st w todo} _.
  Arguments ii_seen {R0 M1 S0 seed st w todo} _ x _.
  Arguments ii_seen0 {R0 M1 S0 seed st w todo} _ x _.

  Lemma inner_ok : forall fuel R0 M1 S0 seed st w todo, inb (fst seed) = true ->
    IInv R0 M1 S0 seed st w todo ->
    match inner fuel seed st w todo with
    | Ok (st', None) => exists w', IInv R0 M1 S0 seed st' w' []
    | Ok (st', Some _) => cyc seed
    | Throw => True
    | UB => False
    | NoFuel => True
    end.
  Proof.
    induction fuel as [|f IH]; intros R0 M1 S0 seed st w todo Hb I; [exact Logic.I|].
    destruct todo as [|[s si] rest]; cbn [LtlModel.inner]; [exists w; exact I|].
    destruct (ii_ent I (s, si) (or_introl eq_refl)) as (Hre & Hpa & Hsr). cbn [fst] in *.
    pose proof (ireach_reachable Hre) as Hmr.
    pose proof (@call_ok s _ (n_clock st) w si Hmr (proj1 (ii_sok I))) as HC.
    destruct (prod_next aut order (n_clock st) s w si) as [[[more w'] si']| | |]; try contradiction; try exact Logic.I. cbn [bind].
    destruct more; cbn [negb nextres] in *.
    - destruct HC as (Hps & Hnl & Hin & Hout).
      destruct (peqb_spec w' seed) as [->|Hne].
      { destruct Hpa as [x|a b c E P]; [exists x; split; [exact (conj Hps Hb)|constructor]|].
        exists b. split; [exact E|]. exact (ppath_trans P (ppath_one (conj Hps Hb))). }
      unfold mark2. destruct (inb (fst w')) eqn:Eb; cbn [tick n_seen n_m1 n_m2 n_clock].
      + assert (Hbs : bsucc s w') by (split; assumption).
        set (st' := mkNst (padd w' (n_seen st)) (n_m1 st) (padd w' (n_m2 st)) (S (n_clock st))).
        assert (G : forall rest', (sok w' (fun x => In x (padd w' (n_m2 st))) rest') ->
                  (forall e, In e rest' -> In (fst e) (map fst ((s, si) :: rest)) \/ fst e = w') ->
                  (forall x, onstack x ((s, si) :: rest) -> onstack x rest') ->
                  (In w' (n_m2 st) \/ onstack w' rest') -> IInv R0 M1 S0 seed st' w' rest').
        { intros rest' K1 K2 K3 K4. constructor; cbn [st' n_m2 n_m1 n_seen].
          - exact K1.
          - intros e He. destruct (K2 e He) as [K|K].
            + apply in_map_iff in K. destruct K as (e' & E & K). destruct (ii_ent I e' K) as (A & B & C). rewrite E in A, B, C.
              split; [exact A|]. split; [exact B|]. destruct C as [C|C]; [left; exact C|right; apply padd_in; right; exact C].
            + rewrite K. split; [exact (ireach_step Hre Hbs)|]. split; [exact (ppath_trans Hpa (ppath_one Hbs))|right; apply padd_in; left; reflexivity].
          - intros x Hx. apply padd_in. right. exact (ii_old I x Hx).
          - intros x Hx. apply padd_in in Hx. destruct Hx as [->|Hx]; [|exact (ii_new I x Hx)]. right.
            destruct Hpa as [x|a b c E P]; [exists w'; split; [exact Hbs|constructor]|].
            exists b. split; [exact E|]. exact (ppath_trans P (ppath_one Hbs)).
          - intros x Hx.
            assert (Hx' : x = w' /\ ~ In x (n_m2 st) \/ (x = seed \/ In x (n_m2 st))).
            { destruct Hx as [Hx|Hx]; [right; left; exact Hx|]. destruct (pmem_spec x (n_m2 st)) as [M|M]; [right; right; exact M|].
              apply padd_in in Hx. destruct Hx as [Hx|Hx]; [left; split; assumption|contradiction]. }
            destruct Hx' as [(-> & M)|Hx'].
            + destruct K4 as [K4|K4]; [contradiction|left; exact K4].
            + destruct (ii_fin I x Hx') as [A|A]; [left; apply K3; exact A|right]. intros y Hy. apply padd_in. right. exact (A y Hy).
          - intros H. apply padd_in in H. destruct H as [H|H]; [congruence|exact (ii_seed I H)].
          - exact (ii_m1 I).
          - intros x Hx. apply padd_in in Hx. destruct Hx as [->|Hx]; [right; apply padd_in; left; reflexivity|].
            destruct (ii_seen I x Hx) as [A|A]; [left; exact A|right; apply padd_in; right; exact A].
          - intros x Hx. apply padd_in. right. exact (ii_seen0 I x Hx). }
        assert (Hlow : Forall (low net aut kbound (fun x => In x (padd w' (n_m2 st)))) ((s, set_last si' w') :: rest)).
        { constructor.
          - split; [cbn; discriminate|]. exists w'. cbn [fst snd]. eapply going_mono; [|exact (Hin eq_refl)].
            intros x [->|Hx]; apply padd_in; [left; reflexivity|right; exact Hx].
          - destruct (ii_sok I) as (_ & Hl). rewrite Forall_forall in *. intros x Hx.
            eapply low_mono; [|exact (Hl x Hx)]. intros y Hy. apply padd_in. right. exact Hy. }
        destruct (pmem_spec w' (n_m2 st)) as [M|M]; cbn [negb].
        * apply IH with (R0 := R0) (M1 := M1) (S0 := S0); [exact Hb|]. apply G.
          -- split; [inversion Hlow as [|? ? A B]; subst; exact (low_einv w' A)|inversion Hlow; assumption].
          -- intros e [<-|He]; left; [left; reflexivity|right; apply in_map; exact He].
          -- intros x [<-|Hx]; [left; reflexivity|right; exact Hx].
          -- left; exact M.
        * apply IH with (R0 := R0) (M1 := M1) (S0 := S0); [exact Hb|]. apply G.
          -- split; [left; reflexivity|exact Hlow].
          -- intros e [<-|[<-|He]]; [right; reflexivity|left; left; reflexivity|left; right; apply in_map; exact He].
          -- intros x [<-|Hx]; [right; left; reflexivity|right; right; exact Hx].
          -- right; left; reflexivity.
      + apply IH with (R0 := R0) (M1 := M1) (S0 := S0); [exact Hb|]. destruct I as [I1 I2 I3 I4 I5 I6 I7 I8 I9].
        constructor; cbn [tick n_m2 n_m1 n_seen]; try assumption.
        * split; [right; exact (Hout eq_refl)|exact (proj2 I1)].
        * intros e [<-|He]; [exact (I2 (s, si) (or_introl eq_refl))|exact (I2 e (or_intror He))].
    - apply IH with (R0 := R0) (M1 := M1) (S0 := S0); [exact Hb|]. destruct I as [I1 I2 I3 I4 I5 I6 I7 I8 I9].
      constructor; cbn [tick n_m2 n_m1 n_seen]; try assumption.
      + exact (sok_pop w' I1).
      + intros e He. exact (I2 e (or_intror He)).
      + intros x Hx. destruct (peq_dec x s) as [->|N]; [right; intros y (A & B); exact (HC y A B)|].
        destruct (I5 x Hx) as [[A|A]|A]; [cbn in A; congruence|left; exact A|right; exact A].
  Qed.

  (** What an inner search without result leaves behind. *)
  Lemma inner_done : forall R0 M1 S0 seed st w, IInv R0 M1 S0 seed st w [] ->
    (forall r r', In r (n_m2 st) -> bsucc r r' -> In r' (n_m2 st)) /\ ~ cyc seed.
  Proof.
    intros R0 M1 S0 seed st w I.
    assert (C : forall r r', In r (n_m2 st) -> bsucc r r' -> In r' (n_m2 st)).
    { intros r r' H E. destruct (ii_fin I r (or_intror H)) as [[]|A]. exact (A r' E). }
    split; [exact C|]. intros (y & E & P). apply (ii_seed I).
    assert (Hy : In y (n_m2 st)) by (destruct (ii_fin I seed (or_introl eq_refl)) as [[]|A]; exact (A y E)).
    revert Hy. clear E. induction P as [x|a b c E P IH]; [trivial|]. intros Hy. apply IH; [exact I|]. exact (C _ _ Hy E).
  Qed.

  (** ** The outer search *)
  Definition bad : Prop := exists s, ireach s /\ accepting aut s = true /\ (cyc s \/ self_loop aut s = true).

  Record OInv (F : pstate -> Prop) (st : nst) (w : pstate) (todo : list entry) : Prop := {
    oi_sok : sok w (fun x => In x (n_m1 st)) todo;
    oi_ent : forall e, In e todo -> ireach (fst e) /\ inb (fst (fst e)) = true;
    oi_chain : chain (map fst todo);
    oi_m1 : forall x, In x (n_m1 st) -> F x \/ onstack x todo;
    oi_fin : forall x y, F x -> bsucc x y -> In y (n_m1 st);
    oi_acc : forall x, F x -> accepting aut x = true -> ~ cyc x;
    oi_m2 : forall x, In x (n_m2 st) -> In x (n_m1 st) /\ ~ onstack x todo;
    oi_cl : forall x y, In x (n_m2 st) -> bsucc x y -> In y (n_m2 st);
    oi_seen : forall x, In x (n_seen st) -> F x \/ onstack x todo;
    oi_seen0 : forall x, F x \/ onstack x todo -> In x (n_seen st)
  }.

  Arguments oi_sok {F st w todo} _.
  Arguments oi_ent {F st w todo} _ e _.
  Arguments oi_chain {F st w todo} _.
  Arguments oi_m1 {F st w todo} _ x _.
  Arguments oi_fin {F st w todo} _ x y _ _.
  Arguments oi_acc {F st w todo} _ x _ _ _.
  Arguments oi_m2 {F st w todo} _ x _.
  Arguments oi_cl {F st w todo} _ x y _ _.
  Arguments oi_seen {F st w todo} _ x _.
  Arguments oi_seen0 {F st w todo} _ x _.

  Lemma outer_ok : forall fuel weak F st w todo, OInv F st w todo ->
    match outer fuel weak st w todo with
    | Ok (st', None) => exists F' w', OInv F' st' w' [] /\ forall x, F x \/ onstack x todo -> F' x
    | Ok (st', Some _) => bad
    | Throw => True
    | UB => False
    | NoFuel => True
    end.
  Proof.
    induction fuel as [|f IH]; intros weak F st w todo I; [exact Logic.I|].
    destruct todo as [|[s si] rest]; cbn [LtlModel.outer]; [exists F, w; split; [exact I|intros x [H|[]]; exact H]|].
    destruct (oi_ent I (s, si) (or_introl eq_refl)) as (Hre & Hsb). cbn [fst] in *.
    pose proof (ireach_reachable Hre) as Hmr.
    pose proof (@call_ok s _ (n_clock st) w si Hmr (proj1 (oi_sok I))) as HC.
    destruct (prod_next aut order (n_clock st) s w si) as [[[more w'] si']| | |]; try contradiction; try exact Logic.I. cbn [bind].
    destruct more; cbn [negb nextres] in *.
    - destruct HC as (Hps & Hnl & Hin & Hout).
      unfold mark1. destruct (inb (fst w')) eqn:Eb; cbn [tick n_seen n_m1 n_m2 n_clock].
      + assert (Hbs : bsucc s w') by (split; assumption).
        set (st' := mkNst (padd w' (n_seen st)) (padd w' (n_m1 st)) (n_m2 st) (S (n_clock st))).
        assert (Hlow : Forall (low net aut kbound (fun x => In x (padd w' (n_m1 st)))) ((s, set_last si' w') :: rest)).
        { constructor.
          - split; [cbn; discriminate|]. exists w'. cbn [fst snd]. eapply going_mono; [|exact (Hin eq_refl)].
            intros x [->|Hx]; apply padd_in; [left; reflexivity|right; exact Hx].
          - destruct (oi_sok I) as (_ & Hl). rewrite Forall_forall in *. intros x Hx.
            eapply low_mono; [|exact (Hl x Hx)]. intros y Hy. apply padd_in. right. exact Hy. }
        assert (Hfin : forall todo' r, OInv F st' w' todo' -> (forall x, onstack x ((s, si) :: rest) -> onstack x todo') ->
                  r = outer f weak st' w' todo' ->
                  match r with
                  | Ok (st'0, None) => exists F' w'0, OInv F' st'0 w'0 [] /\ forall x, F x \/ onstack x ((s, si) :: rest) -> F' x
                  | Ok (st'0, Some _) => bad
                  | Throw => True | UB => False | NoFuel => True
                  end).
        { intros todo' r K1 K2 ->. specialize (IH weak F st' w' todo' K1). destruct (outer f weak st' w' todo') as [[st2 [v|]]| | |]; try exact IH.
          destruct IH as (F' & w2 & A & B). exists F', w2. split; [exact A|]. intros x [H|H]; apply B; [left; exact H|right; apply K2; exact H]. }
        destruct I as [I1 I2 I3 I4 I5 I6 I7 I8 I9 I10].
        destruct (pmem_spec w' (n_m1 st)) as [M|M]; cbn [negb].
        * apply (Hfin ((s, set_last si' w') :: rest)); [|intros x Hx; exact Hx|reflexivity].
          assert (Em : forall x, In x (padd w' (n_m1 st)) <-> In x (n_m1 st)) by (intros x; rewrite padd_in; intuition; subst; assumption).
          assert (Hsn : In w' (n_seen st)) by (apply I10; apply I4; exact M).
          assert (Es : forall x, In x (padd w' (n_seen st)) <-> In x (n_seen st)) by (intros x; rewrite padd_in; intuition; subst; assumption).
          constructor; cbn [st' n_m1 n_m2 n_seen]; try assumption.
          -- split; [inversion Hlow as [|? ? A B]; subst; exact (low_einv w' A)|inversion Hlow; assumption].
          -- intros e [<-|He]; [exact (I2 (s, si) (or_introl eq_refl))|exact (I2 e (or_intror He))].
          -- intros x Hx. apply Em in Hx. exact (I4 x Hx).
          -- intros x y A B. apply Em. exact (I5 x y A B).
          -- intros x Hx. destruct (I7 x Hx) as (A & B). split; [apply Em; exact A|exact B].
          -- intros x Hx. apply Es in Hx. exact (I9 x Hx).
          -- intros x Hx. apply Es. exact (I10 x Hx).
        * destruct (weak && accepting aut s && self_loop aut s) eqn:W.
          { apply andb_true_iff in W. destruct W as (W & W3). apply andb_true_iff in W. destruct W as (_ & W2).
            exists s. split; [exact Hre|]. split; [exact W2|right; exact W3]. }
          apply (Hfin ((w', si_init) :: (s, set_last si' w') :: rest)); [|intros x Hx; right; exact Hx|reflexivity].
          constructor; cbn [st' n_m1 n_m2 n_seen]; try assumption.
          -- split; [left; reflexivity|exact Hlow].
          -- intros e [<-|[<-|He]]; [split; [exact (ireach_step Hre Hbs)|exact Eb]|exact (I2 (s, si) (or_introl eq_refl))|exact (I2 e (or_intror He))].
          -- split; [exact Hbs|exact I3].
          -- intros x Hx. apply padd_in in Hx. destruct Hx as [->|Hx]; [right; left; reflexivity|].
             destruct (I4 x Hx) as [A|A]; [left; exact A|right; right; exact A].
          -- intros x y A B. apply padd_in. right. exact (I5 x y A B).
          -- intros x Hx. destruct (I7 x Hx) as (A & B). split; [apply padd_in; right; exact A|].
             intros [E|E]; [cbn in E; subst x; contradiction|exact (B E)].
          -- intros x Hx. apply padd_in in Hx. destruct Hx as [->|Hx]; [right; left; reflexivity|].
             destruct (I9 x Hx) as [A|A]; [left; exact A|right; right; exact A].
          -- intros x Hx. apply padd_in. destruct Hx as [Hx|[Hx|Hx]]; [right; apply I10; left; exact Hx|left; symmetry; exact Hx|right; apply I10; right; exact Hx].
      + specialize (IH weak F (tick st) w' ((s, si') :: rest)). cbn [tick n_seen n_m1 n_m2 n_clock] in IH.
        assert (K : OInv F (tick st) w' ((s, si') :: rest)).
        { destruct I as [I1 I2 I3 I4 I5 I6 I7 I8 I9 I10]. constructor; cbn [tick n_m2 n_m1 n_seen]; try assumption.
          - split; [right; exact (Hout eq_refl)|exact (proj2 I1)].
          - intros e [<-|He]; [exact (I2 (s, si) (or_introl eq_refl))|exact (I2 e (or_intror He))]. }
        specialize (IH K). destruct (outer f weak (tick st) w' ((s, si') :: rest)) as [[st2 [v|]]| | |]; exact IH.
    - (* all successors of [s] are marked *)
      assert (Hall : forall y, bsucc s y -> In y (n_m1 st)) by (intros y (A & B); exact (HC y A B)).
      assert (Hpop : forall st', n_m1 st' = n_m1 st -> (forall x, In x (n_seen st') <-> In x (n_seen st)) ->
                (accepting aut s = true -> ~ cyc s) ->
                (forall x, In x (n_m2 st') -> In x (n_m1 st) /\ ~ onstack x rest) ->
                (forall x y, In x (n_m2 st') -> bsucc x y -> In y (n_m2 st')) ->
                match outer f weak st' w' rest with
                | Ok (st'0, None) => exists F' w'0, OInv F' st'0 w'0 [] /\ forall x, F x \/ onstack x ((s, si) :: rest) -> F' x
                | Ok (st'0, Some _) => bad
                | Throw => True | UB => False | NoFuel => True
                end).
      { intros st' E1 E2 Hac Hr Hc. destruct I as [I1 I2 I3 I4 I5 I6 I7 I8 I9 I10].
        specialize (IH weak (fun x => x = s \/ F x) st' w' rest).
        assert (K : OInv (fun x => x = s \/ F x) st' w' rest).
        { constructor; rewrite ?E1; try assumption.
          - exact (sok_pop w' I1).
          - intros e He. exact (I2 e (or_intror He)).
          - exact (@chain_tl net aut kbound (map fst rest) s I3).
          - intros x Hx. destruct (I4 x Hx) as [A|[A|A]]; [left; right; exact A|left; left; symmetry; exact A|right; exact A].
          - intros x y [->|Hx] E; [exact (Hall y E)|exact (I5 x y Hx E)].
          - intros x [->|Hx]; [exact Hac|exact (I6 x Hx)].
          - intros x Hx. apply E2 in Hx. destruct (I9 x Hx) as [A|[A|A]]; [left; right; exact A|left; left; symmetry; exact A|right; exact A].
          - intros x Hx. apply E2. apply I10. destruct Hx as [[->|Hx]|Hx]; [right; left; reflexivity|left; exact Hx|right; right; exact Hx]. }
        specialize (IH K). destruct (outer f weak st' w' rest) as [[st2 [v|]]| | |]; try exact IH.
        destruct IH as (F' & w2 & A & B). exists F', w2. split; [exact A|].
        intros x [H|[H|H]]; apply B; [left; right; exact H|left; left; symmetry; exact H|right; exact H]. }
      destruct (accepting aut s) eqn:Ac.
      + destruct (self_loop aut s) eqn:Sl; [exists s; split; [exact Hre|]; split; [exact Ac|right; exact Sl]|].
        set (st1 := mkNst (padd s (n_seen (tick st))) (n_m1 (tick st)) (n_m2 (tick st)) (n_clock (tick st))).
        assert (Hns : ~ In s (n_m2 st)) by (intros H; apply (proj2 (oi_m2 I s H)); left; reflexivity).
        assert (K : IInv (n_m2 st) (n_m1 st) (n_seen st) s st1 s [(s, si_init)]).
        { constructor; cbn [st1 tick n_m1 n_m2 n_seen].
          - split; [left; reflexivity|constructor].
          - intros e [<-|[]]. split; [exact Hre|]. split; [constructor|left; reflexivity].
          - intros x Hx; exact Hx.
          - intros x Hx; left; exact Hx.
          - intros x [->|Hx]; [left; left; reflexivity|right; intros y; exact (oi_cl I x y Hx)].
          - exact Hns.
          - reflexivity.
          - intros x Hx. apply padd_in in Hx. destruct Hx as [->|Hx]; [left; apply (oi_seen0 I); right; left; reflexivity|left; exact Hx].
          - intros x Hx. apply padd_in. right. exact Hx. }
        pose proof (@inner_ok f _ _ _ s st1 s [(s, si_init)] Hsb K) as HI.
        destruct (inner f s st1 s [(s, si_init)]) as [[st2 [v|]]| | |]; try exact HI; cbn [bind snd fst].
        * exists s. split; [exact Hre|]. split; [exact Ac|left; exact HI].
        * destruct HI as (w2 & J). destruct (inner_done J) as (Hcl & Hnc).
          assert (Hnew : forall x, In x (n_m2 st2) -> In x (n_m1 st) /\ ~ onstack x ((s, si) :: rest)).
          { intros x Hx. destruct (ii_new J x Hx) as [A|(y & E & P)]; [exact (oi_m2 I x A)|].
            assert (Hno : forall z, ppath s z -> (exists y, bsucc s y /\ ppath y z) -> ~ onstack z ((s, si) :: rest)).
            { intros z _ (u & Eu & Pu) Hz. apply Hnc. exists u. split; [exact Eu|]. apply (ppath_trans Pu).
              exact (@chain_path net aut kbound (map fst rest) s z (oi_chain I) Hz). }
            assert (Hm : In y (n_m1 st)) by exact (Hall y E).
            assert (Hgo : forall z, ppath y z -> In z (n_m1 st)).
            { intros z Pz. assert (G : forall a, ppath y a -> ppath a z -> In a (n_m1 st) -> In z (n_m1 st)).
              { intros a Pa Q. revert Pa. induction Q as [a|a b c Eab Q IHQ]; intros Pa Ha; [exact Ha|].
                apply IHQ; [exact Pz|exact (ppath_trans Pa (ppath_one Eab))|].
                destruct (oi_m1 I a Ha) as [Fa|Sa]; [exact (oi_fin I a b Fa Eab)|].
                exfalso. apply (Hno a (ppath_step E Pa)); [exists y; split; [exact E|exact Pa]|exact Sa]. }
              exact (G y (ppath_refl _ _ _ y) Pz Hm). }
            split; [exact (Hgo x P)|]. apply Hno; [exact (ppath_step E P)|exists y; split; assumption]. }
          apply Hpop.
          -- exact (ii_m1 J).
          -- intros x. split; intros Hx; [|exact (ii_seen0 J x Hx)].
             destruct (ii_seen J x Hx) as [A|A]; [exact A|]. destruct (Hnew x A) as (B & _).
             apply (oi_seen0 I). exact (oi_m1 I x B).
          -- intros _. exact Hnc.
          -- intros x Hx. destruct (Hnew x Hx) as (A & B). split; [exact A|]. intros C. apply B. right. exact C.
          -- exact Hcl.
      + apply Hpop.
        * reflexivity.
        * intros x; reflexivity.
        * discriminate.
        * cbn [tick n_m2]. intros x Hx. destruct (oi_m2 I x Hx) as (A & B). split; [exact A|]. intros C. apply B. right. exact C.
        * cbn [tick n_m2]. intros x y. exact (oi_cl I x y).
  Qed.

  Lemma ndfs_inits_ok : forall fuel weak inits st F w, (forall s, In s inits -> In s (initial_states aut m0)) ->
    OInv F st w [] ->
    match ndfs_inits aut order kbound fuel weak inits st with
    | Ok (st', None) => exists F' w', OInv F' st' w' [] /\ (forall x, F x -> F' x) /\ forall s, In s inits -> inb (fst s) = true -> F' s
    | Ok (st', Some _) => bad
    | Throw => True
    | UB => False
    | NoFuel => True
    end.
  Proof.
    intros fuel weak. induction inits as [|s r IH]; intros st F w Hin I; cbn [ndfs_inits].
    { exists F, w. split; [exact I|]. split; [intros x H; exact H|intros s []]. }
    assert (Hr : forall x, In x r -> In x (initial_states aut m0)) by (intros x Hx; apply Hin; right; exact Hx).
    destruct (inb (fst s)) eqn:Eb; cbn [andb].
    - destruct (pmem_spec s (n_seen st)) as [M|M]; cbn [negb].
      + specialize (IH st F w Hr I). destruct (ndfs_inits aut order kbound fuel weak r st) as [[st2 [v|]]| | |]; try exact IH.
        destruct IH as (F' & w2 & A & B & C). exists F', w2. split; [exact A|]. split; [exact B|].
        intros x [<-|Hx] Hb; [|exact (C x Hx Hb)]. apply B. destruct (oi_seen I s M) as [H|[]]; exact H.
      + set (st1 := mkNst (s :: n_seen st) (n_m1 st) (n_m2 st) (n_clock st)).
        assert (Hst : istart m0 aut kbound s) by (split; [apply Hin; left; reflexivity|exact Eb]).
        assert (K : OInv F st1 s [(s, si_init)]).
        { destruct I as [I1 I2 I3 I4 I5 I6 I7 I8 I9 I10]. constructor; cbn [st1 n_m1 n_m2 n_seen]; try assumption.
          - split; [left; reflexivity|constructor].
          - intros e [<-|[]]. split; [exists s; split; [exact Hst|constructor]|exact Eb].
          - intros x Hx. destruct (I4 x Hx) as [A|[]]. left; exact A.
          - intros x Hx. destruct (I7 x Hx) as (A & _). split; [exact A|]. intros [E|[]]. cbn in E. subst x.
            apply M. apply I10. exact (I4 _ A).
          - intros x [<-|Hx]; [right; left; reflexivity|]. destruct (I9 x Hx) as [A|[]]. left; exact A.
          - intros x [Hx|[Hx|[]]]; [right; apply I10; left; exact Hx|left; exact Hx]. }
        pose proof (outer_ok fuel weak K) as HO.
        destruct (outer fuel weak st1 s [(s, si_init)]) as [[st2 [v|]]| | |]; try exact HO; cbn [bind fst snd].
        destruct HO as (F1 & w1 & A1 & B1). specialize (IH st2 F1 w1 Hr A1).
        destruct (ndfs_inits aut order kbound fuel weak r st2) as [[st3 [v|]]| | |]; try exact IH.
        destruct IH as (F' & w2 & A & B & C). exists F', w2. split; [exact A|]. split; [intros x Hx; apply B, B1; left; exact Hx|].
        intros x [<-|Hx] Hb; [apply B, B1; right; left; reflexivity|exact (C x Hx Hb)].
    - specialize (IH st F w Hr I). destruct (ndfs_inits aut order kbound fuel weak r st) as [[st2 [v|]]| | |]; try exact IH.
      destruct IH as (F' & w2 & A & B & C). exists F', w2. split; [exact A|]. split; [exact B|].
      intros x [<-|Hx] Hb; [congruence|exact (C x Hx Hb)].
  Qed.

  (** The answer in terms of cycles: no violation means a finite set of states, closed under
      successors, without an accepting cycle. *)
  Lemma ndfs_cycles : forall fuel weak,
    match ndfs_check aut order kbound fuel weak m0 with
    | Ok true => exists l, (forall s, istart m0 aut kbound s -> In s l) /\ (forall x y, In x l -> bsucc x y -> In y l) /\
                   (forall x, In x l -> accepting aut x = true -> ~ cyc x)
    | Ok false => bad
    | Throw => True
    | UB => False
    | NoFuel => True
    end.
  Proof.
    intros fuel weak. unfold ndfs_check.
    assert (I : OInv (fun _ => False) (mkNst [] [] [] 0) (m0, 0) []).
    { constructor; cbn; try tauto. }
    pose proof (@ndfs_inits_ok fuel weak (initial_states aut m0) _ _ _ (fun s H => H) I) as H.
    destruct (ndfs_inits aut order kbound fuel weak (initial_states aut m0) (mkNst [] [] [] 0)) as [[st [v|]]| | |]; try exact H; cbn [bind snd].
    destruct H as (F & w & A & _ & C). exists (n_seen st).
    assert (S : forall x, In x (n_seen st) <-> F x).
    { intros x. split; [intros Hx; destruct (oi_seen A x Hx) as [H|[]]; exact H|intros Hx; apply (oi_seen0 A); left; exact Hx]. }
    split; [|split].
    - intros s (H1 & H2). apply S. exact (C s H1 H2).
    - intros x y Hx E. apply S. apply S in Hx. destruct (oi_m1 A y (oi_fin A x y Hx E)) as [H|[]]. exact H.
    - intros x Hx. apply (oi_acc A). apply S. exact Hx.
  Qed.
End Ndfs.
