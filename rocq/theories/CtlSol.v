(** The meaning of a configuration is the solution of the on-the-fly graph. *)
From Coq Require Import Classical_Prop.
From Verif Require Import Base BaseLemmas PqlSyntax PqlModel DgSpec CtlModel CtlProofs.
Set Implicit Arguments.

Lemma frag_child : forall c d i, frag c = true -> child c i = Some d -> frag d = true.
Proof.
  intros c d i Hf Hc. destruct c; cbn [frag child] in *; try discriminate.
  - destruct i; [|discriminate]. congruence.
  - rewrite forallb_forall in Hf. apply Hf. eapply nth_error_In. exact Hc.
  - rewrite forallb_forall in Hf. apply Hf. eapply nth_error_In. exact Hc.
  - destruct i; [|discriminate]. congruence.
  - destruct i; [|discriminate]. congruence.
  - destruct i; [|discriminate]. congruence.
  - destruct i; [|discriminate]. congruence.
  - apply andb_prop in Hf. destruct Hf. destruct i as [|[|]]; [congruence|congruence|discriminate].
  - apply andb_prop in Hf. destruct Hf. destruct i as [|[|]]; [congruence|congruence|discriminate].
Qed.
Lemma frag_sub : forall p c d, frag c = true -> sub c p = Some d -> frag d = true.
Proof.
  induction p as [|i p IH]; intros c d Hf H; cbn [sub] in H; [congruence|].
  destruct (child c i) as [x|] eqn:E; [|discriminate]. apply (IH x d); [apply (frag_child _ _ Hf E)|exact H].
Qed.

Section Sol.
  Variable deadb : list N -> bool.
  Variable succs : list N -> list (list N).
  Variable root : cond.
  Hypothesis Hroot : frag root = true.
  Notation ev := (evaluate deadb).
  Notation g := (dg deadb succs root).
  Notation tsat := (tsat deadb succs).
  Notation gval := (gval deadb succs root).
  Notation val := (val deadb succs root).
  Notation wit := (wit deadb succs root).

  Lemma val_at : forall p c m, sub root p = Some c -> (val (m, p) <-> gval c m).
  Proof. intros p c m H. unfold CtlProofs.val. cbn [fst snd]. rewrite H. tauto. Qed.
  Arguments val_at {p c} m _.
  Lemma sub_child : forall p c i d, sub root p = Some c -> child c i = Some d -> sub root (p ++ [i]) = Some d.
  Proof. intros p c i d H Hc. rewrite sub_app, H. exact Hc. Qed.
  Arguments sub_child {p c i d} _ _.
  Lemma val_child : forall p c m, sub root p = Some c -> forall i d, child c i = Some d -> ev m d = RUnknown -> (val (m, p ++ [i]) <-> tsat d m).
  Proof. intros p c m H i d Hc E. rewrite (val_at m (sub_child H Hc)). apply gval_unknown. exact E. Qed.
  Arguments val_child {p c} m _ {i d} _ _.
  Lemma commit_in : forall (e : hedge ctlconf) d, In e (commit d) -> fst d = false /\ e = mkHedge false (snd d).
  Proof. intros e [[|] ts] H; cbn in H; [contradiction|]. destruct H as [H|[]]. split; [reflexivity|symmetry; exact H]. Qed.
  Lemma commit_add : forall (m m' : list N) p i, commit (add_target (m', p) new_draft (m, p ++ [i])) = [mkHedge false [(m, p ++ [i])]].
  Proof. intros m m' p i. unfold new_draft. rewrite (add_other [] (@pos_ne p i m m')). reflexivity. Qed.
  Lemma add_snd : forall (m m' : list N) p i, snd (add_target (m', p) new_draft (m, p ++ [i])) = [(m, p ++ [i])].
  Proof. intros m m' p i. unfold new_draft. rewrite (add_other [] (@pos_ne p i m m')). reflexivity. Qed.

  Lemma child_not : forall c, child (CNot c) 0 = Some c. Proof. reflexivity. Qed.

  (** an edge that fires makes its source true *)
  Lemma edge_sound : forall m p c e, sub root p = Some c -> In e (g (m, p)) -> DgSpec.fires val e -> gval c m.
  Proof.
    intros m p c e Hs He Hf. assert (Hfc := frag_sub _ _ Hroot Hs). unfold dg in He. rewrite Hs in He.
    destruct c as [b| |c|l|l|o a b|neg cs|c|c|c|c|c|c|a b|a b|c|c|c|c|c|a b]; cbn [frag] in Hfc; try discriminate Hfc.
    - cbn [CtlProofs.gval]. destruct (ev m root); [reflexivity|contradiction|contradiction].
    - cbn [CtlProofs.gval]. destruct (ev m root); [reflexivity|contradiction|contradiction].
    - unfold new_draft in He. rewrite (add_other [] (@pos_ne p 0 m m)) in He. cbn in He. destruct He as [<-|[]].
      unfold DgSpec.fires in Hf. cbn in Hf. destruct Hf as (t & [<-|[]] & Hf). cbn [CtlProofs.gval]. intros K. apply Hf.
      apply (val_at m (sub_child Hs (child_not c))). exact K.
    - assert (A := and_ops_spec deadb m l 0). destruct (and_ops deadb m l 0) as [is|]; [|contradiction].
      unfold new_draft in He. rewrite add_targets_other in He.
      2:{ intros x Hx. apply in_map_iff in Hx. destruct Hx as (i & <- & _). apply pos_ne. }
      cbn in He. destruct He as [<-|[]]. unfold DgSpec.fires in Hf. cbn in Hf. rewrite app_nil_r in Hf.
      apply tsat_and. intros c Hc. destruct (In_nth_error _ _ Hc) as (k & Hk). destruct A as (A & _). rewrite forallb_forall in Hfc.
      destruct (A k c Hk) as [K|(K1 & K2)]; [apply ev_true; auto|]. apply (val_child m Hs (i:=k) Hk K1). apply Hf.
      apply -> in_rev. apply (in_map (fun i => (m, p ++ [i])) is k K2).
    - assert (A := or_ops_spec deadb m l 0). rewrite forallb_forall in Hfc. destruct (or_ops deadb m l 0) as [is|].
      + apply in_flat_map in He. destruct He as (i & Hi & He). rewrite commit_add in He. destruct He as [<-|[]].
        destruct A as (_ & A). destruct (A i Hi) as (k & c & K1 & K2 & K3). cbn in K1. subst k. apply tsat_or. exists c. split; [apply (nth_error_In _ _ K2)|].
        apply (val_child m Hs (i:=i) K2 K3). apply Hf. left. reflexivity.
      + destruct A as (c & Hc & A). apply tsat_or. exists c. split; [exact Hc|apply ev_true; auto].
    - cbn [CtlProofs.gval]. destruct (ev m root); [reflexivity|contradiction|contradiction].
    - cbn [CtlProofs.gval]. destruct (ev m root); [reflexivity|contradiction|contradiction].
    - cbn [CtlProofs.gval CtlProofs.tsat]. assert (Sp : forall m', (m', p ++ [0]) <> (m, p)) by (intros m'; apply pos_ne).
      destruct (ex_loop_spec deadb c (succs m) [] Sp) as [((x & X1 & X2) & A)|(A & C)].
      + exists x. split; [exact X1|apply ev_true; auto].
      + apply C in He. destruct He as [[]|(x & X1 & X2 & ->)]. exists x. split; [exact X1|]. apply (val_child x Hs (i:=0) eq_refl X2). apply Hf. left. reflexivity.
    - cbn [CtlProofs.gval CtlProofs.tsat]. assert (Sp : forall m', (m', p ++ [0]) <> (m, p)) by (intros m'; apply pos_ne).
      assert (A := ax_loop_spec deadb c (succs m) [] false Sp). unfold new_draft in He.
      destruct (ax_loop deadb c (p ++ [0]) (m, p) (succs m) (false, []) false) as [[d u]|]; [|contradiction].
      destruct A as (A & B & C & D). destruct He as [<-|[]]. intros x Hx. destruct u.
      + destruct (ev x c) eqn:E; [apply ev_true; auto|exfalso; apply (B x Hx E)|]. apply (val_child x Hs (i:=0) eq_refl E). apply Hf. cbn [h_targets].
        apply C. right. exists x. auto.
      + apply ev_true; [exact Hfc|]. apply (proj2 (D eq_refl) x Hx).
    - cbn [CtlProofs.gval CtlProofs.tsat]. destruct (ev m c) eqn:E.
      + apply EU_now. apply ev_true; auto.
      + destruct (ef_loop_spec deadb (CEF c) p (m, p) (succs m) []) as [((x & X1 & X2) & A)|(A & B & C)].
        * apply EU_step with x; [exact I|exact X1|]. apply (ev_true deadb succs (CEF c)); auto.
        * rewrite B, app_nil_r in He. apply C in He. destruct He as [[]|(x & X1 & X2 & X3 & ->)]. apply EU_step with x; [exact I|exact X1|].
          apply (val_at x Hs). apply Hf. left. reflexivity.
      + destruct (ef_loop_spec deadb (CEF c) p (m, p) (succs m) []) as [((x & X1 & X2) & A)|(A & B & C)].
        * apply EU_step with x; [exact I|exact X1|]. apply (ev_true deadb succs (CEF c)); auto.
        * rewrite B in He. apply in_app_iff in He. destruct He as [He|He].
          -- apply C in He. destruct He as [[]|(x & X1 & X2 & X3 & ->)]. apply EU_step with x; [exact I|exact X1|].
             apply (val_at x Hs). apply Hf. left. reflexivity.
          -- rewrite add_snd in He. destruct He as [<-|[]]. apply EU_now. apply (val_child m Hs (i:=0) eq_refl E). apply Hf. left. reflexivity.
    - cbn [CtlProofs.gval CtlProofs.tsat]. assert (Hn : forall m', ev m' (CAF c) <> RFalse) by (intros m'; cbn; destruct (ev m' c); discriminate).
      assert (Hsub : In e (match ev m c with RUnknown => [mkHedge false (snd (add_target (m, p) new_draft (m, p ++ [0])))] | _ => [] end) -> AUi succs (fun _ => True) (tsat c) m).
      { intros K. destruct (ev m c) eqn:E; [contradiction|contradiction|]. rewrite add_snd in K. destruct K as [<-|[]]. apply AU_now.
        apply (val_child m Hs (i:=0) eq_refl E). apply Hf. left. reflexivity. }
      destruct (ev m c) eqn:E; [apply AU_now; apply ev_true; auto| |].
      all: destruct (succs m) as [|m1 l1] eqn:El; [apply Hsub; exact He|]; rewrite <- El in He;
        destruct (af_loop_spec deadb (CAF c) p (m, p) (succs m) [] Hn) as (A & B); unfold new_draft in He, Hsub; rewrite A in He; apply in_app_iff in He;
        (destruct He as [He|He]; [|apply Hsub; exact He]); apply commit_in in He; destruct He as (He & ->);
        (destruct B as [(B & _)|(B & C)]; [congruence|]);
        apply AU_step; [exact I|rewrite El; discriminate|];
        intros x Hx; destruct (ev x (CAF c)) eqn:Ex; [apply (ev_true deadb succs (CAF c)); auto|exfalso; apply (Hn x Ex)|];
        apply (val_at x Hs); apply Hf; cbn [h_targets]; apply C; right; exists x; auto.
    - apply andb_prop in Hfc. destruct Hfc as (Hfa & Hfb). cbn [CtlProofs.gval CtlProofs.tsat].
      destruct (ev m b) eqn:Eb; [apply EU_now; apply ev_true; auto| |].
      all: set (lf := match ev m a return option ctlconf with RUnknown => @Some (list N * list nat) (m, p ++ [0]) | _ => None end) in *;
        set (valid := match ev m a with RTrue => true | _ => false end) in *.
      all: assert (Hl : forall x, lf = Some x -> x <> (m, p)) by (unfold lf; intros x K; destruct (ev m a); try discriminate K; injection K as <-; apply pos_ne).
      all: assert (Ha : (lf <> None \/ valid = true) -> (forall t, In t (lefts lf) -> val t) -> tsat a m)
        by (unfold lf, valid; intros K1 K2; destruct (ev m a) eqn:Ea; [apply ev_true; auto|destruct K1 as [K1|K1]; congruence|];
            apply (val_child m Hs (i:=0) eq_refl Ea); apply K2; left; reflexivity).
      all: assert (Hq : In e (fst (eu_loop deadb (CEU a b) p (m, p) lf valid (succs m) [])) -> EUi succs (tsat a) (tsat b) m).
      1,3: intros K; destruct (classic (lf <> None \/ valid = true)) as [V|V];
        [|assert (lf = None /\ valid = false) as (V1 & V2) by (destruct lf; [exfalso; apply V; left; discriminate|]; destruct valid; [exfalso; apply V; right; reflexivity|]; auto);
          rewrite V1, V2, eu_loop_stop in K; contradiction];
        destruct (eu_loop_spec deadb (CEU a b) p (succs m) [] Hl V) as [((x & X1 & X2) & A & _)|(A & B & C)];
        [rewrite A in K; destruct K as [<-|[]]; apply EU_step with x; [apply Ha; [exact V|exact Hf]|exact X1|apply (ev_true deadb succs (CEU a b)); [cbn; rewrite Hfa, Hfb; reflexivity|exact X2]]
        |apply C in K; destruct K as [[]|(x & X1 & X2 & X3 & ->)]; apply EU_step with x;
          [apply Ha; [exact V|intros t Ht; apply Hf; apply in_app_iff; left; exact Ht]|exact X1|apply (val_at x Hs); apply Hf; apply in_app_iff; right; left; reflexivity]].
      + apply Hq. destruct (snd _) in He; rewrite app_nil_r in He; exact He.
      + apply in_app_iff in He. destruct He as [He|He]; [apply Hq; exact He|]. destruct (snd _) in He; [|contradiction].
        rewrite commit_add in He. destruct He as [<-|[]]. apply EU_now. apply (val_child m Hs (i:=1) eq_refl Eb). apply Hf. left. reflexivity.
    - apply andb_prop in Hfc. destruct Hfc as (Hfa & Hfb). cbn [CtlProofs.gval CtlProofs.tsat].
      destruct (ev m b) eqn:Eb; [apply AU_now; apply ev_true; auto| |].
      all: assert (Hq : In e (match ev m a with RFalse => [] | _ => match succs m with [] => [] | _ =>
             match au_loop deadb (CAU a b) p (m, p) (succs m) new_draft with None => [] | Some e => commit (match ev m a with RUnknown => add_target (m, p) e (m, p ++ [0]) | _ => e end) end end end) ->
             AUi succs (tsat a) (tsat b) m).
      1,3: intros K; assert (A := au_loop_spec deadb (CAU a b) p (m, p) (succs m) []); unfold new_draft in K;
        destruct (au_loop deadb (CAU a b) p (m, p) (succs m) (false, [])) as [d|]; [|destruct (ev m a); try contradiction; destruct (succs m); contradiction];
        destruct (ev m a) eqn:Ea; [|contradiction|]; (destruct (succs m) as [|m1 l1] eqn:El; [contradiction|]); rewrite <- El in *;
        destruct A as [(A & B & _)|(A & B & C)].
      all: try (destruct d as [d1 d2]; cbn [fst snd] in *; subst; rewrite ?(add_other _ (@pos_ne p 0 m m)) in K; cbn in K; contradiction).
      1,3: apply commit_in in K; destruct K as (_ & ->); apply AU_step; [apply ev_true; auto|rewrite El; discriminate|];
        intros x Hx; destruct (ev x (CAU a b)) eqn:Ex; [apply (ev_true deadb succs (CAU a b)); [cbn; rewrite Hfa, Hfb; reflexivity|exact Ex]|exfalso; apply (B x Hx Ex)|];
        apply (val_at x Hs); apply Hf; cbn [h_targets]; apply C; right; exists x; auto.
      1,2: destruct d as [d1 d2]; cbn [fst snd] in *; subst d1; rewrite (add_other _ (@pos_ne p 0 m m)) in K; apply commit_in in K; destruct K as (_ & ->);
        apply AU_step; [apply (val_child m Hs (i:=0) eq_refl Ea); apply Hf; left; reflexivity|rewrite El; discriminate|];
        intros x Hx; destruct (ev x (CAU a b)) eqn:Ex; [apply (ev_true deadb succs (CAU a b)); [cbn; rewrite Hfa, Hfb; reflexivity|exact Ex]|exfalso; apply (B x Hx Ex)|];
        apply (val_at x Hs); apply Hf; cbn [h_targets snd]; right; apply C; right; exists x; auto.
      + apply Hq. rewrite app_nil_r in He. destruct (ev m a); try contradiction; destruct (succs m); exact He.
      + apply in_app_iff in He. destruct He as [He|He]; [apply Hq; destruct (ev m a); try contradiction; destruct (succs m); exact He|].
        rewrite commit_add in He. destruct He as [<-|[]]. apply AU_now. apply (val_child m Hs (i:=1) eq_refl Eb). apply Hf. left. reflexivity.
  Qed.
  Lemma wit_single : forall v t, In (mkHedge false [t]) (g v) -> val t -> wit t -> wit v.
  Proof. intros v t H1 H2 H3. apply wit_pos with (mkHedge false [t]); [exact H1|reflexivity|intros x [<-|[]]; exact H2|intros x [<-|[]]; exact H3]. Qed.

  (** what is true has a witness *)
  Lemma complete : forall c, frag c = true -> forall p, sub root p = Some c -> forall m, gval c m -> wit (m, p).
  Proof.
    induction c using cond_ind'; intros Hfc p Hs m Hv; assert (Hfc' := Hfc); cbn [frag] in Hfc; try discriminate Hfc.
    - apply wit_empty. unfold dg. rewrite Hs. cbn [CtlProofs.gval] in Hv. rewrite Hv. left. reflexivity.
    - apply wit_empty. unfold dg. rewrite Hs. cbn [CtlProofs.gval] in Hv. rewrite Hv. left. reflexivity.
    - apply wit_neg with (mkHedge true [(m, p ++ [0])]).
      + unfold dg. rewrite Hs. unfold new_draft. rewrite (add_other [] (@pos_ne p 0 m m)). left. reflexivity.
      + reflexivity.
      + unfold DgSpec.fires. cbn. exists (m, p ++ [0]). split; [left; reflexivity|]. rewrite (val_at m (sub_child Hs (child_not c))). exact Hv.
    - rewrite Forall_forall in H. rewrite forallb_forall in Hfc. cbn [CtlProofs.gval] in Hv. rewrite tsat_and in Hv.
      assert (A := and_ops_spec deadb m l 0). assert (G := @eq_refl _ (g (m, p))). unfold dg in G at 2. rewrite Hs in G.
      destruct (and_ops deadb m l 0) as [is|].
      + destruct A as (_ & A). unfold new_draft in G. rewrite add_targets_other in G.
        2:{ intros x Hx. apply in_map_iff in Hx. destruct Hx as (i & <- & _). apply pos_ne. }
        assert (T : forall t, In t (rev (map (fun i => (m, p ++ [i])) is) ++ []) -> exists k c, t = (m, p ++ [k]) /\ nth_error l k = Some c /\ ev m c = RUnknown).
        { intros t Ht. rewrite app_nil_r in Ht. apply in_rev in Ht. apply in_map_iff in Ht. destruct Ht as (i & <- & Hi). destruct (A i Hi) as (k & c & K1 & K2 & K3). cbn in K1. subst k. exists i, c. auto. }
        eapply wit_pos; [rewrite G; left; reflexivity|reflexivity| |]; cbn [h_targets snd].
        * intros t Ht. destruct (T t Ht) as (k & c & -> & K2 & K3). apply (val_child m Hs (i:=k) K2 K3). apply Hv. apply (nth_error_In _ _ K2).
        * intros t Ht. destruct (T t Ht) as (k & c & -> & K2 & K3). assert (Hin := nth_error_In _ _ K2). apply (H c Hin (Hfc c Hin)).
          -- apply (sub_child Hs (i:=k) K2).
          -- apply (gval_unknown deadb succs root c m K3). apply Hv. exact Hin.
      + destruct A as (c & Hc & A). exfalso. apply (ev_false deadb succs c m (Hfc c Hc) A). apply Hv. exact Hc.
    - rewrite Forall_forall in H. rewrite forallb_forall in Hfc. cbn [CtlProofs.gval] in Hv. rewrite tsat_or in Hv. destruct Hv as (c & Hc & Hv).
      assert (A := or_ops_spec deadb m l 0). assert (G := @eq_refl _ (g (m, p))). unfold dg in G at 2. rewrite Hs in G.
      destruct (or_ops deadb m l 0) as [is|].
      + destruct A as (A & _). destruct (In_nth_error _ _ Hc) as (k & Hk). destruct (A k c Hk) as [K|(K1 & K2)].
        * exfalso. apply (ev_false deadb succs c m (Hfc c Hc) K). exact Hv.
        * apply wit_single with (m, p ++ [k]).
          -- rewrite G. apply in_flat_map. exists k. split; [exact K2|]. rewrite commit_add. left. reflexivity.
          -- apply (val_child m Hs (i:=k) Hk K1). exact Hv.
          -- apply (H c Hc (Hfc c Hc)); [apply (sub_child Hs (i:=k) Hk)|]. apply (gval_unknown deadb succs root c m K1). exact Hv.
      + apply wit_empty. rewrite G. left. reflexivity.
    - apply wit_empty. unfold dg. rewrite Hs. cbn [CtlProofs.gval] in Hv. rewrite Hv. left. reflexivity.
    - apply wit_empty. unfold dg. rewrite Hs. cbn [CtlProofs.gval] in Hv. rewrite Hv. left. reflexivity.
    - cbn [CtlProofs.gval CtlProofs.tsat] in Hv. destruct Hv as (x & Hx & Hv).
      assert (G := @eq_refl _ (g (m, p))). unfold dg in G at 2. rewrite Hs in G. assert (Sp : forall m', (m', p ++ [0]) <> (m, p)) by (intros m'; apply pos_ne).
      destruct (ex_loop_spec deadb c (succs m) [] Sp) as [(_ & A)|(A & C)].
      + apply wit_empty. rewrite G, A. left. reflexivity.
      + destruct (ev x c) eqn:E; [exfalso; apply (A x Hx E)|exfalso; apply (ev_false deadb succs c x Hfc E Hv)|].
        apply wit_single with (x, p ++ [0]).
        * rewrite G. apply C. right. exists x. auto.
        * apply (val_child x Hs (i:=0) eq_refl E). exact Hv.
        * apply (IHc Hfc); [apply (sub_child Hs (i:=0) eq_refl)|]. apply (gval_unknown deadb succs root c x E). exact Hv.
    - cbn [CtlProofs.gval CtlProofs.tsat] in Hv. assert (G := @eq_refl _ (g (m, p))). unfold dg in G at 2. rewrite Hs in G. assert (Sp : forall m', (m', p ++ [0]) <> (m, p)) by (intros m'; apply pos_ne).
      assert (A := ax_loop_spec deadb c (succs m) [] false Sp). unfold new_draft in G.
      destruct (ax_loop deadb c (p ++ [0]) (m, p) (succs m) (false, []) false) as [[d u]|].
      + destruct A as (A & B & C & D).
        assert (T : forall t, In t (if u then snd d else []) -> exists x, In x (succs m) /\ ev x c = RUnknown /\ t = (x, p ++ [0])).
        { intros t Ht. destruct u; [|contradiction]. apply C in Ht. destruct Ht as [[]|(x & X)]. exists x. exact X. }
        eapply wit_pos; [rewrite G; left; reflexivity|reflexivity| |]; cbn [h_targets].
        * intros t Ht. destruct (T t Ht) as (x & X1 & X2 & ->). apply (val_child x Hs (i:=0) eq_refl X2). apply Hv. exact X1.
        * intros t Ht. destruct (T t Ht) as (x & X1 & X2 & ->). apply (IHc Hfc); [apply (sub_child Hs (i:=0) eq_refl)|]. apply (gval_unknown deadb succs root c x X2). apply Hv. exact X1.
      + destruct A as (x & X1 & X2). exfalso. apply (ev_false deadb succs c x Hfc X2). apply Hv. exact X1.
    - cbn [CtlProofs.gval CtlProofs.tsat] in Hv. induction Hv as [m Hb|m m' _ Hin Hu IH].
      all: assert (G := @eq_refl _ (g (m, p))); unfold dg in G at 2; rewrite Hs in G.
      + destruct (ev m c) eqn:E; [apply wit_empty; rewrite G; left; reflexivity|exfalso; apply (ev_false deadb succs c m Hfc E Hb)|].
        destruct (ef_loop_spec deadb (CEF c) p (m, p) (succs m) []) as [(_ & A)|(A & B & C)].
        * apply wit_empty. rewrite G, A. left. reflexivity.
        * rewrite B, add_snd in G. apply wit_single with (m, p ++ [0]).
          -- rewrite G. apply in_app_iff. right. left. reflexivity.
          -- apply (val_child m Hs (i:=0) eq_refl E). exact Hb.
          -- apply (IHc Hfc); [apply (sub_child Hs (i:=0) eq_refl)|]. apply (gval_unknown deadb succs root c m E). exact Hb.
      + destruct (classic (ev m c = RTrue)) as [E|E]; [rewrite E in G; apply wit_empty; rewrite G; left; reflexivity|].
        replace (match ev m c with RTrue => true | _ => false end) with false in G by (destruct (ev m c); congruence).
        destruct (ef_loop_spec deadb (CEF c) p (m, p) (succs m) []) as [(_ & A)|(A & B & C)].
        * apply wit_empty. rewrite G, A. left. reflexivity.
        * destruct (ev m' (CEF c)) eqn:E'; [exfalso; apply (A m' Hin E')|exfalso; apply (ev_false deadb succs (CEF c) m' Hfc' E' Hu)|].
          destruct (ctlconf_eq (m', p) (m, p)) as [Es|Es]; [rewrite <- Es; exact IH|].
          apply wit_single with (m', p); [|apply (val_at m' Hs); exact Hu|exact IH].
          rewrite G. apply in_app_iff. left. apply C. right. exists m'. auto.
    - cbn [CtlProofs.gval CtlProofs.tsat] in Hv. assert (Hn : forall m', ev m' (CAF c) <> RFalse) by (intros m'; cbn; destruct (ev m' c); discriminate).
      induction Hv as [m Hb|m _ Hne Hall IH].
      all: assert (G := @eq_refl _ (g (m, p))); unfold dg in G at 2; rewrite Hs in G.
      + destruct (ev m c) eqn:E; [apply wit_empty; rewrite G; left; reflexivity|exfalso; apply (ev_false deadb succs c m Hfc E Hb)|].
        apply wit_single with (m, p ++ [0]).
        * rewrite G, add_snd. destruct (af_loop_spec deadb (CAF c) p (m, p) (succs m) [] Hn) as (A & _).
          destruct (succs m) as [|m1 l1]; [left; reflexivity|]. unfold new_draft. rewrite A. apply in_app_iff. right. left. reflexivity.
        * apply (val_child m Hs (i:=0) eq_refl E). exact Hb.
        * apply (IHc Hfc); [apply (sub_child Hs (i:=0) eq_refl)|]. apply (gval_unknown deadb succs root c m E). exact Hb.
      + destruct (classic (ev m c = RTrue)) as [E|E]; [rewrite E in G; apply wit_empty; rewrite G; left; reflexivity|].
        replace (match ev m c with RTrue => true | _ => false end) with false in G by (destruct (ev m c); congruence).
        destruct (af_loop_spec deadb (CAF c) p (m, p) (succs m) [] Hn) as (A & B). destruct B as [(B & (x & X1 & X2 & X3))|(B & C)].
        * rewrite X3. apply IH. exact X1.
        * destruct (succs m) as [|m1 l1] eqn:El; [congruence|]. rewrite <- El in *. unfold new_draft in G.
          assert (T : forall t, In t (snd (fst (af_loop deadb (CAF c) p (m, p) (succs m) (false, [])))) -> exists x, In x (succs m) /\ t = (x, p)).
          { intros t Ht. apply C in Ht. destruct Ht as [[]|(x & X1 & X2 & X3)]. exists x. auto. }
          eapply wit_pos; [rewrite G; apply in_app_iff; left; unfold commit; rewrite B; left; reflexivity|reflexivity| |]; cbn [h_targets].
          -- intros t Ht. destruct (T t Ht) as (x & X1 & ->). apply (val_at x Hs). apply Hall. exact X1.
          -- intros t Ht. destruct (T t Ht) as (x & X1 & ->). apply IH. exact X1.
    - apply andb_prop in Hfc. destruct Hfc as (Hfa & Hfb). cbn [CtlProofs.gval CtlProofs.tsat] in Hv. induction Hv as [m Hb|m m' Ha Hin Hu IH].
      all: assert (G := @eq_refl _ (g (m, p))); unfold dg in G at 2; rewrite Hs in G.
      all: set (lf := match ev m c1 return option ctlconf with RUnknown => @Some (list N * list nat) (m, p ++ [0]) | _ => None end) in *; set (valid := match ev m c1 with RTrue => true | _ => false end) in *.
      all: assert (Hl : forall x, lf = Some x -> x <> (m, p)) by (unfold lf; intros x K; destruct (ev m c1); try discriminate K; injection K as <-; apply pos_ne).
      + destruct (ev m c2) eqn:E; [apply wit_empty; rewrite G; left; reflexivity|exfalso; apply (ev_false deadb succs c2 m Hfb E Hb)|].
        assert (R : In (mkHedge false [(m, p ++ [1])]) (g (m, p)) -> wit (m, p)).
        { intros K. apply wit_single with (m, p ++ [1]); [exact K| |].
          - apply (val_child m Hs (i:=1) eq_refl E). exact Hb.
          - apply (IHc2 Hfb); [apply (sub_child Hs (i:=1) eq_refl)|]. apply (gval_unknown deadb succs root c2 m E). exact Hb. }
        rewrite commit_add in G. destruct (classic (lf <> None \/ valid = true)) as [V|V].
        * destruct (eu_loop_spec deadb (CEU c1 c2) p (succs m) [] Hl V) as [(_ & A & B)|(A & B & C)].
          -- destruct (snd (eu_loop deadb (CEU c1 c2) p (m, p) lf valid (succs m) [])) eqn:Eq.
             ++ apply R. rewrite G. apply in_app_iff. right. left. reflexivity.
             ++ rewrite (B eq_refl) in A. apply wit_empty. rewrite G. apply in_app_iff. left. rewrite (B eq_refl), A. left. reflexivity.
          -- apply R. rewrite G, B. apply in_app_iff. right. left. reflexivity.
        * assert (lf = None /\ valid = false) as (V1 & V2) by (destruct lf; [exfalso; apply V; left; discriminate|]; destruct valid; [exfalso; apply V; right; reflexivity|]; auto).
          rewrite V1, V2, eu_loop_stop in G. apply R. rewrite G. left. reflexivity.
      + destruct (classic (ev m c2 = RTrue)) as [E|E]; [rewrite E in G; apply wit_empty; rewrite G; left; reflexivity|].
        replace (match ev m c2 with RTrue => true | _ => false end) with false in G by (destruct (ev m c2); congruence).
        assert (V : lf <> None \/ valid = true).
        { unfold lf, valid. destruct (ev m c1) eqn:Ea; [right; reflexivity|exfalso; apply (ev_false deadb succs c1 m Hfa Ea Ha)|left; discriminate]. }
        assert (T : forall t, In t (lefts lf) -> val t /\ wit t).
        { unfold lf. intros t Ht. destruct (ev m c1) eqn:Ea; [contradiction|contradiction|]. destruct Ht as [<-|[]]. split.
          - apply (val_child m Hs (i:=0) eq_refl Ea). exact Ha.
          - apply (IHc1 Hfa); [apply (sub_child Hs (i:=0) eq_refl)|]. apply (gval_unknown deadb succs root c1 m Ea). exact Ha. }
        destruct (eu_loop_spec deadb (CEU c1 c2) p (succs m) [] Hl V) as [(_ & A & B)|(A & B & C)].
        * eapply wit_pos; [rewrite G; apply in_app_iff; left; rewrite A; left; reflexivity|reflexivity| |]; cbn [h_targets]; intros t Ht; apply T; exact Ht.
        * destruct (ev m' (CEU c1 c2)) eqn:E'; [exfalso; apply (A m' Hin E')|exfalso; apply (ev_false deadb succs (CEU c1 c2) m' Hfc' E' Hu)|].
          destruct (ctlconf_eq (m', p) (m, p)) as [Es|Es]; [rewrite <- Es; exact IH|].
          eapply wit_pos with (e := mkHedge false (lefts lf ++ [(m', p)])); [rewrite G; apply in_app_iff; left; apply C; right; exists m'; auto|reflexivity| |]; cbn [h_targets].
          -- intros t Ht. apply in_app_iff in Ht. destruct Ht as [Ht|[<-|[]]]; [apply T; exact Ht|apply (val_at m' Hs); exact Hu].
          -- intros t Ht. apply in_app_iff in Ht. destruct Ht as [Ht|[<-|[]]]; [apply T; exact Ht|exact IH].
    - apply andb_prop in Hfc. destruct Hfc as (Hfa & Hfb). cbn [CtlProofs.gval CtlProofs.tsat] in Hv. induction Hv as [m Hb|m Ha Hne Hall IH].
      all: assert (G := @eq_refl _ (g (m, p))); unfold dg in G at 2; rewrite Hs in G.
      + destruct (ev m c2) eqn:E; [apply wit_empty; rewrite G; left; reflexivity|exfalso; apply (ev_false deadb succs c2 m Hfb E Hb)|].
        apply wit_single with (m, p ++ [1]).
        * rewrite G, commit_add. apply in_app_iff. right. left. reflexivity.
        * apply (val_child m Hs (i:=1) eq_refl E). exact Hb.
        * apply (IHc2 Hfb); [apply (sub_child Hs (i:=1) eq_refl)|]. apply (gval_unknown deadb succs root c2 m E). exact Hb.
      + destruct (classic (ev m c2 = RTrue)) as [E|E]; [rewrite E in G; apply wit_empty; rewrite G; left; reflexivity|].
        replace (match ev m c2 with RTrue => true | _ => false end) with false in G by (destruct (ev m c2); congruence).
        assert (A := au_loop_spec deadb (CAU c1 c2) p (m, p) (succs m) []). unfold new_draft in G.
        destruct (au_loop deadb (CAU c1 c2) p (m, p) (succs m) (false, [])) as [d|] eqn:Ed.
        2:{ destruct A as (x & X1 & X2). exfalso. apply (ev_false deadb succs (CAU c1 c2) x Hfc' X2). apply Hall. exact X1. }
        destruct A as [(_ & _ & (x & X1 & X2 & X3))|(A & B & C)]; [rewrite X3; apply IH; exact X1|].
        destruct (succs m) as [|m1 l1] eqn:El; [congruence|]. rewrite <- El in *. rewrite Ed in G.
        assert (T : forall t, In t (snd d) -> exists x, In x (succs m) /\ t = (x, p)).
        { intros t Ht. apply C in Ht. destruct Ht as [[]|(x & X1 & X2 & X3)]. exists x. auto. }
        destruct d as [d1 d2]. cbn [fst snd] in *. subst d1. destruct (ev m c1) eqn:Ea.
        * eapply wit_pos; [rewrite G; apply in_app_iff; left; left; reflexivity|reflexivity| |]; cbn [h_targets snd].
          -- intros t Ht. destruct (T t Ht) as (x & X1 & ->). apply (val_at x Hs). apply Hall. exact X1.
          -- intros t Ht. destruct (T t Ht) as (x & X1 & ->). apply IH. exact X1.
        * exfalso. apply (ev_false deadb succs c1 m Hfa Ea Ha).
        * rewrite (add_other _ (@pos_ne p 0 m m)) in G.
          eapply wit_pos; [rewrite G; apply in_app_iff; left; left; reflexivity|reflexivity| |]; cbn [h_targets snd].
          -- intros t [<-|Ht]; [apply (val_child m Hs (i:=0) eq_refl Ea); exact Ha|]. destruct (T t Ht) as (x & X1 & ->). apply (val_at x Hs). apply Hall. exact X1.
          -- intros t [<-|Ht].
             ++ apply (IHc1 Hfa); [apply (sub_child Hs (i:=0) eq_refl)|]. apply (gval_unknown deadb succs root c1 m Ea). exact Ha.
             ++ destruct (T t Ht) as (x & X1 & ->). apply IH. exact X1.
  Qed.

  Lemma val_wit : forall v, val v -> wit v.
  Proof.
    intros [m p] H. unfold CtlProofs.val in H. cbn [fst snd] in H. destruct (sub root p) as [c|] eqn:Hs; [|contradiction].
    apply (@complete c (frag_sub _ _ Hroot Hs) p Hs m H).
  Qed.
  Theorem dg_solution : solution g val.
  Proof.
    split.
    - intros [m p]. split.
      + intros H. apply val_wit in H. destruct H as [v e H1 H2 H3|v e H1 H2 H3 _]; exists e; (split; [exact H1|]); [exact H3|]. unfold DgSpec.fires. rewrite H2. exact H3.
      + intros (e & He & Hf). destruct (sub root p) as [c|] eqn:Hs.
        * apply (val_at m Hs). apply (@edge_sound m p c e Hs He Hf).
        * unfold dg in He. rewrite Hs in He. contradiction.
    - intros S HS v Sv Hv. apply val_wit in Hv. induction Hv as [v e H1 H2 H3|v e H1 H2 H3 _ IH].
      + assert (K := HS v Sv e H1). unfold stuck in K. rewrite H2 in K. unfold DgSpec.fires in H3. rewrite H2 in H3. destruct H3 as (t & T1 & T2). auto.
      + assert (K := HS v Sv e H1). unfold stuck in K. rewrite H2 in K. destruct K as (t & T1 & [T2|T2]); [apply (IH t T1 T2)|apply T2; auto].
  Qed.
End Sol.
