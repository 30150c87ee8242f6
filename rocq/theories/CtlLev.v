(** Negation levels of the on-the-fly graph. *)
From Coq Require Import Classical_Prop.
From Verif Require Import Base BaseLemmas PqlSyntax PqlModel DgSpec CtlModel CtlProofs CtlSol.
Set Implicit Arguments.

Section Lev.
  Variable deadb : list N -> bool.
  Variable succs : list N -> list (list N).
  Variable root : cond.
  Notation ev := (evaluate deadb).
  Notation g := (dg deadb succs root).
  Definition depth (v : ctlconf) : nat := negs root (snd v).
  Definition near (c : cond) (p : list nat) (t : ctlconf) : Prop := exists m', t = (m', p) \/ exists i, child c i <> None /\ t = (m', p ++ [i]).
  Definition shape (c : cond) (m : list N) (p : list nat) (e : hedge ctlconf) : Prop :=
    match c with
    | CNot _ => e = mkHedge true [(m, p ++ [0])]
    | _ => h_neg e = false /\ forall t, In t (h_targets e) -> near c p t
    end.
  Lemma near_same : forall c p m, near c p (m, p).
  Proof. intros c p m. exists m. left. reflexivity. Qed.
  Lemma near_child : forall c p m i, child c i <> None -> near c p (m, p ++ [i]).
  Proof. intros c p m i H. exists m. right. exists i. auto. Qed.
  Arguments near_child {c p m i} _.
  Lemma shape_ok : forall m p c e, sub root p = Some c -> In e (g (m, p)) -> shape c m p e.
  Proof.
    intros m p c e Hs He. unfold dg in He. rewrite Hs in He.
    assert (Ee : e = empty_edge -> h_neg e = false /\ forall t, In t (h_targets e) -> near c p t) by (intros ->; split; [reflexivity|intros t []]).
    destruct c as [b| |c|l|l|o a b|neg cs|c|c|c|c|c|c|a b|a b|c|c|c|c|c|a b]; cbn [shape]; try contradiction.
    - destruct (ev m root); try contradiction. destruct He as [<-|[]]. auto.
    - destruct (ev m root); try contradiction. destruct He as [<-|[]]. auto.
    - unfold new_draft in He. rewrite (add_other [] (@pos_ne p 0 m m)) in He. cbn in He. destruct He as [<-|[]]. reflexivity.
    - assert (A := and_ops_spec deadb m l 0). destruct (and_ops deadb m l 0) as [is|]; [|contradiction].
      unfold new_draft in He. rewrite add_targets_other in He.
      2:{ intros x Hx. apply in_map_iff in Hx. destruct Hx as (i & <- & _). apply pos_ne. }
      cbn in He. destruct He as [<-|[]]. split; [reflexivity|]. cbn [h_targets]. intros t Ht. rewrite app_nil_r in Ht. apply in_rev in Ht.
      apply in_map_iff in Ht. destruct Ht as (i & <- & Hi). destruct A as (_ & A). destruct (A i Hi) as (k & c & K1 & K2 & K3). cbn in K1. subst k.
      apply near_child. cbn. congruence.
    - assert (A := or_ops_spec deadb m l 0). destruct (or_ops deadb m l 0) as [is|]; [|destruct He as [<-|[]]; auto].
      apply in_flat_map in He. destruct He as (i & Hi & He). rewrite commit_add in He. destruct He as [<-|[]]. split; [reflexivity|].
      intros t [<-|[]]. destruct A as (_ & A). destruct (A i Hi) as (k & c & K1 & K2 & K3). cbn in K1. subst k. apply near_child. cbn. congruence.
    - destruct (ev m root); try contradiction. destruct He as [<-|[]]. auto.
    - destruct (ev m root); try contradiction. destruct He as [<-|[]]. auto.
    - assert (Sp : forall m', (m', p ++ [0]) <> (m, p)) by (intros m'; apply pos_ne).
      destruct (ex_loop_spec deadb c (succs m) [] Sp) as [(_ & A)|(A & C)].
      + rewrite A in He. destruct He as [<-|[]]. auto.
      + apply C in He. destruct He as [[]|(x & X1 & X2 & ->)]. split; [reflexivity|]. intros t [<-|[]]. apply near_child. discriminate.
    - assert (Sp : forall m', (m', p ++ [0]) <> (m, p)) by (intros m'; apply pos_ne).
      assert (A := ax_loop_spec deadb c (succs m) [] false Sp). unfold new_draft in He.
      destruct (ax_loop deadb c (p ++ [0]) (m, p) (succs m) (false, []) false) as [[d u]|]; [|contradiction].
      destruct A as (A & B & C & D). destruct He as [<-|[]]. split; [reflexivity|]. cbn [h_targets]. intros t Ht. destruct u; [|contradiction].
      apply C in Ht. destruct Ht as [[]|(x & X1 & X2 & ->)]. apply near_child. discriminate.
    - destruct (match ev m c with RTrue => true | _ => false end); [destruct He as [<-|[]]; auto|].
      apply in_app_iff in He. destruct He as [He|He].
      + destruct (ef_loop_spec deadb (CEF c) p (m, p) (succs m) []) as [(_ & A)|(A & B & C)].
        * rewrite A in He. destruct He as [<-|[]]. auto.
        * apply C in He. destruct He as [[]|(x & X1 & X2 & X3 & ->)]. split; [reflexivity|]. intros t [<-|[]]. apply near_same.
      + destruct (snd _) in He; [|contradiction]. destruct (ev m c); try contradiction. rewrite add_snd in He. destruct He as [<-|[]].
        split; [reflexivity|]. intros t [<-|[]]. apply near_child. discriminate.
    - assert (Hn : forall m', ev m' (CAF c) <> RFalse) by (intros m'; cbn; destruct (ev m' c); discriminate).
      destruct (match ev m c with RTrue => true | _ => false end); [destruct He as [<-|[]]; auto|].
      assert (Hsub : In e (match ev m c with RUnknown => [mkHedge false (snd (add_target (m, p) new_draft (m, p ++ [0])))] | _ => [] end) ->
        h_neg e = false /\ (forall t : ctlconf, In t (h_targets e) -> near (CAF c) p t)).
      { intros K. destruct (ev m c); try contradiction. rewrite add_snd in K. destruct K as [<-|[]]. split; [reflexivity|]. intros t [<-|[]]. apply near_child. discriminate. }
      destruct (succs m) as [|m1 l1] eqn:El; [apply Hsub; exact He|]. rewrite <- El in He.
      destruct (af_loop_spec deadb (CAF c) p (m, p) (succs m) [] Hn) as (A & B). unfold new_draft in He, Hsub. rewrite A in He. apply in_app_iff in He.
      destruct He as [He|He]; [|apply Hsub; exact He]. apply commit_in in He. destruct He as (He & ->). split; [reflexivity|]. cbn [h_targets].
      destruct B as [(B & _)|(B & C)]; [congruence|]. intros t Ht. apply C in Ht. destruct Ht as [[]|(x & X1 & X2 & ->)]. apply near_same.
    - destruct (match ev m b with RTrue => true | _ => false end); [destruct He as [<-|[]]; auto|].
      set (lf := match ev m a return option ctlconf with RUnknown => @Some (list N * list nat) (m, p ++ [0]) | _ => None end) in *;
        set (valid := match ev m a with RTrue => true | _ => false end) in *.
      assert (Hl : forall x, lf = Some x -> x <> (m, p)) by (unfold lf; intros x K; destruct (ev m a); try discriminate K; injection K as <-; apply pos_ne).
      assert (Hll : forall t, In t (lefts lf) -> near (CEU a b) p t).
      { unfold lf. intros t Ht. destruct (ev m a); try contradiction. destruct Ht as [<-|[]]. apply near_child. discriminate. }
      apply in_app_iff in He. destruct He as [He|He].
      + destruct (classic (lf <> None \/ valid = true)) as [V|V].
        * destruct (eu_loop_spec deadb (CEU a b) p (succs m) [] Hl V) as [(_ & A & _)|(A & B & C)].
          -- rewrite A in He. destruct He as [<-|[]]. split; [reflexivity|exact Hll].
          -- apply C in He. destruct He as [[]|(x & X1 & X2 & X3 & ->)]. split; [reflexivity|]. intros t Ht. apply in_app_iff in Ht.
             destruct Ht as [Ht|[<-|[]]]; [apply Hll; exact Ht|apply near_same].
        * assert (lf = None /\ valid = false) as (V1 & V2) by (destruct lf; [exfalso; apply V; left; discriminate|]; destruct valid; [exfalso; apply V; right; reflexivity|]; auto).
          rewrite V1, V2, eu_loop_stop in He. contradiction.
      + destruct (snd _) in He; [|contradiction]. destruct (ev m b); try contradiction. rewrite commit_add in He. destruct He as [<-|[]].
        split; [reflexivity|]. intros t [<-|[]]. apply near_child. discriminate.
    - destruct (match ev m b with RTrue => true | _ => false end); [destruct He as [<-|[]]; auto|].
      apply in_app_iff in He. destruct He as [He|He].
      + assert (A := au_loop_spec deadb (CAU a b) p (m, p) (succs m) []). unfold new_draft in He.
        destruct (succs m) as [|m1 l1] eqn:El; [destruct (ev m a); contradiction|]. rewrite <- El in *.
        destruct (au_loop deadb (CAU a b) p (m, p) (succs m) (false, [])) as [d|]; [|destruct (ev m a); contradiction].
        destruct A as [(A & B & _)|(A & B & C)]; destruct d as [d1 d2]; cbn [fst snd] in *; subst d1.
        * destruct (ev m a); cbn in He; contradiction.
        * rewrite (add_other _ (@pos_ne p 0 m m)) in He.
          assert (T : forall t, In t d2 -> near (CAU a b) p t) by (intros t Ht; apply C in Ht; destruct Ht as [[]|(x & X1 & X2 & ->)]; apply near_same).
          destruct (ev m a); [destruct He as [<-|[]]|contradiction|destruct He as [<-|[]]]; (split; [reflexivity|]); cbn [h_targets snd].
          -- exact T.
          -- intros t [<-|Ht]; [apply near_child; discriminate|apply T; exact Ht].
      + destruct (ev m b); try contradiction. rewrite commit_add in He. destruct He as [<-|[]]. split; [reflexivity|]. intros t [<-|[]]. apply near_child. discriminate.
  Qed.
  Theorem dg_leveled : forall m, leveled g (m, []) depth.
  Proof.
    intros m0. split.
    - reflexivity.
    - intros [m p] e He Hn. destruct (sub root p) as [c|] eqn:Hs; [|unfold dg in He; rewrite Hs in He; contradiction].
      assert (K := @shape_ok m p c e Hs He). destruct c; try (destruct K as (K & _); congruence). cbn [shape] in K. subst e. eexists. reflexivity.
    - intros [m p] e t He Ht. destruct (sub root p) as [c|] eqn:Hs; [|unfold dg in He; rewrite Hs in He; contradiction].
      assert (K := @shape_ok m p c e Hs He).
      assert (G : (match c with CNot _ => False | _ => True end) -> near c p t -> depth t = depth (m, p)).
      { intros Hc (m' & [->|(i & Hi & ->)]); [reflexivity|]. unfold depth. cbn [snd]. rewrite (@negs_app p root c i Hs Hi). destruct c; try contradiction; lia. }
      destruct c; try (destruct K as (K & K'); rewrite K; specialize (G I (K' t Ht)); lia).
      cbn [shape] in K. subst e. cbn [h_neg h_targets] in *. destruct Ht as [<-|[]]. unfold depth. cbn [snd].
      rewrite (@negs_app p root (CNot c) 0 Hs); [reflexivity|discriminate].
  Qed.
End Lev.
