(** The invariant over the run of the algorithm. *)
From Verif Require Import Base BaseLemmas DgSpec DgModel DgInv DgOps DgSteps DgAssign DgExplore DgFresh DgNew.
Set Implicit Arguments.

Section Run.
  Variable conf : Type.
  Variable ceq : forall a b : conf, {a = b} + {a <> b}.
  Variable g : graph conf.
  Variable val : conf -> Prop.
  Variable depth : conf -> nat.
  Variable addr : nat -> nat.
  Variable init : conf.
  Hypothesis Hsol : solution g val.
  Hypothesis Hlev : leveled g init depth.
  Notation st := (st conf).
  Notation edge := (edge conf).
  Notation Sem := (Sem g val depth).
  Notation Inv := (Inv g val depth).
  Notation okW := (okW val).
  Notation settles := (settles val).

  Definition known (s s' : st) : Prop := forall x, asg_of s x <> Unknown -> asg_of s' x <> Unknown.
  Lemma known_trans : forall s s1 s2, known s s1 -> known s1 s2 -> known s s2.
  Proof. unfold known. auto. Qed.
  Lemma known_same : forall s s' : st, (forall x, asg_of s' x = asg_of s x) -> known s s'.
  Proof. intros s s' H x Hx. rewrite H. exact Hx. Qed.
  Lemma known_at : forall (s s' : st) c, (forall x, x <> c -> s_cfg s' x = s_cfg s x) -> asg_of s' c <> Unknown -> known s s'.
  Proof. intros s s' c H Hc x Hx. destruct (ceq x c) as [->|Hn]; [exact Hc|]. unfold asg_of in *. rewrite (H x Hn). exact Hx. Qed.

  (** * The edge under work *)
  Definition settled (s : st) (e : edge) : Prop := e_handled e = true \/ exists c, e_src e = Some c /\ asg_of s c <> Zero.

  Lemma final_old : forall own H X s c a i e, Inv own H X s -> asg_of s c = Zero -> settles c a -> In i H -> ed s i = Some e -> e_src e = Some c ->
    exists s', final_assign ceq s c a = Ok s' /\ Inv own H X s' /\ known s s' /\ exists e', ed s' i = Some e' /\ settled s' e'.
  Proof.
    intros own H X s c a i e I Hc Ha Hi E Es.
    destruct (@final_assign_ok conf ceq g val depth addr own H X s c a I Hc Ha) as (s' & F1 & F2 & F3 & F4 & F5 & F6 & F7).
    assert (Hd : a = One \/ a = CZero) by (destruct Ha as [(-> & _)|(-> & _)]; auto).
    exists s'. split; [exact F1|]. split; [exact F2|]. split; [apply known_at with c; [exact F3|rewrite F4; destruct Hd as [Hd|Hd]; rewrite Hd; discriminate]|].
    assert (Mi : mem H s' i) by (right; right; right; left; exact Hi). destruct (k_sem F6 Mi E) as (e' & E' & S'). exists e'. split; [exact E'|].
    right. exists c. rewrite (sem_src S'). split; [exact Es|]. rewrite F4. destruct Hd as [Hd|Hd]; rewrite Hd; discriminate.
  Qed.
  Lemma handle_old : forall own H X s i e c k h, Inv own H X s -> In i X -> ed s i = Some e -> e_src e = Some c -> asg_of s c = Zero ->
    nth_error (own c) k = Some (Some i) -> nth_error (g c) k = Some h -> blocked s h ->
    exists own' s', handle ceq false s i = Ok s' /\ Inv own' H X s' /\ known s s' /\ exists e', ed s' i = Some e' /\ settled s' e'.
  Proof.
    intros own H X s i e c k h I Hi E Es Hc Hk Hg Hb.
    assert (HiH : In i H) by (apply (b_X (proj2 I)); exact Hi). assert (M : mem H s i) by (right; right; right; left; exact HiH).
    destruct (get_ok ceq I M) as (e0 & c0 & G & E0 & Es0 & Hr & _). rewrite E in E0. injection E0 as <-. rewrite Es in Es0. injection Es0 as <-.
    destruct (b_own (proj2 I) c Hc) as (_ & Hns). assert (Hn : exists n, nsuccs s c = S n) by (rewrite Hns, (somes_upd _ _ Hk); eauto). destruct Hn as (n & Hn).
    assert (I1 := @mark_ok conf ceq g val depth own H X s i e c k h n I Hi E Es Hc Hk Hg Hb Hn). set (own1 := disown ceq own c k) in *. set (s1 := mark ceq s i e c n) in *.
    set (e1 := mkEdge (e_src e) (e_tgts e) (e_neg e) (e_status e) (e_processed e) true (e_ref e)).
    assert (E1 : ed s1 i = Some e1) by (unfold s1, mark; eapply ed_set; exact E).
    assert (A1 : forall x, asg_of s1 x = asg_of s x) by (intros x; unfold s1, mark, asg_of; cbn; destruct (ceq x c) as [->|]; reflexivity).
    assert (Hc1 : asg_of s1 c = Zero) by (rewrite A1; exact Hc).
    assert (Fin : exists s2, (if Nat.eqb n 0 then final_assign ceq s1 c CZero else Ok s1) = Ok s2 /\ Inv own1 H X s2 /\ known s1 s2 /\ exists e', ed s2 i = Some e' /\ settled s2 e').
    { destruct (Nat.eqb_spec n 0) as [->|Hn0].
      - assert (Hv : ~ val c) by (eapply (none_left Hsol c I1); [exact Hc1|]; unfold nsuccs, s1, mark; cbn; destruct (ceq c c); [reflexivity|congruence]).
        apply (@final_old own1 H X s1 c CZero i e1 I1 Hc1 (or_intror (conj eq_refl Hv)) HiH E1 Es).
      - exists s1. split; [reflexivity|]. split; [exact I1|]. split; [apply known_same; reflexivity|]. exists e1. split; [exact E1|left; reflexivity]. }
    destruct Fin as (s2 & F1 & F2 & F3 & e2 & F4 & F5).
    exists own1, s2. split; [|split; [exact F2|split; [eapply known_trans; [apply known_same; exact A1|exact F3]|exists e2; auto]]].
    unfold handle. rewrite G. cbn [bind fst snd]. unfold nsuccs in Hn. rewrite Hn. destruct (Z.ltb_spec (e_ref e) 1); [lia|].
    change (set_edge _ i _) with s1. rewrite F1. cbn [bind]. rewrite (rd_ok _ _ F4). cbn [bind].
    assert (M2 : mem H s2 i) by (right; right; right; left; exact HiH). destruct F2 as ((L2 & R2) & B2). destruct (mem_ref ceq R2 M2) as (e3 & E3 & E4 & E5). rewrite F4 in E3. injection E3 as <-.
    destruct (Z.eqb_spec (e_ref e2) 0); [lia|reflexivity].
  Qed.

  (** the end of checkEdge *)
  Lemma finish_ok : forall own s i e, Inv own [i] [i] s -> ed s i = Some e ->
    (settled s e \/
     ((In i (s_W s) -> okW s (mkEdge (e_src e) (e_tgts e) (e_neg e) (e_status e) true (e_handled e) (e_ref e))) /\
      (e_neg e = false -> forall t, In t (e_tgts e) -> undone s t -> In i (deps s t)) /\
      (In i (s_D s) \/ if e_neg e then In i (s_N s) /\ (forall t, In t (e_tgts e) -> asg_of s t <> Unknown)
                       else (exists t, In t (e_tgts e) /\ asg_of s t = Zero) /\ (forall t, In t (e_tgts e) -> undone s t)))) ->
    exists s', (e <- rd (s_edges s) i ;;
        let s := if (0 <? e_ref e)%Z && negb false
                 then set_edge s i (mkEdge (e_src e) (e_tgts e) (e_neg e) (e_status e) true (e_handled e) (e_ref e))
                 else s in
        if (e_ref e =? 0)%Z then release s i else Ok s) = Ok s' /\ Inv own [i] [] s' /\ known s s'.
  Proof.
    intros own s i e I E F. assert (M : mem [i] s i) by (right; right; right; left; left; reflexivity).
    destruct (get_ok ceq I M) as (e0 & c & G & E0 & Es & Hr & Hu & _). rewrite E in E0. injection E0 as <-.
    rewrite (rd_ok _ _ E). cbn [bind]. destruct (Z.ltb_spec 0 (e_ref e)); [|lia]. cbn [andb negb]. destruct (Z.eqb_spec (e_ref e) 0); [lia|].
    set (e1 := mkEdge (e_src e) (e_tgts e) (e_neg e) (e_status e) true (e_handled e) (e_ref e)). set (s1 := set_edge s i e1).
    exists s1. split; [reflexivity|]. split; [|apply known_same; reflexivity].
    assert (I1 : Inv own [i] [i] s1).
    { apply edge_change with (e := e); auto using incl_refl.
      - left. reflexivity.
      - intros Hw. destruct F as [F|(F1 & _)]; [|exact (F1 Hw)]. intros x _ _ K1 K2 K3. destruct F as [F|(y & F1 & F2)]; [cbn in K1; congruence|]. cbn in K2. congruence.
      - intros x K1 K2 K3 K4 _. destruct F as [[F|(y & F1 & F2)]|(_ & F & _)]; [congruence|congruence|]. apply F. exact K4. }
    assert (E1 : ed s1 i = Some e1) by (eapply ed_set; exact E).
    eapply (@Inv_X conf g val depth own _ [i] [] s1 I1); [intros j []|]. intros j ej [<-|[]] _ Ej. rewrite E1 in Ej. injection Ej as <-. split; [|left; reflexivity].
    intros x K1 K2 K3. cbn in K1, K2. destruct F as [[F|(y & F1 & F2)]|(_ & _ & F)]; [congruence| |].
    - exfalso. change (asg_of s x = Zero) in K3. congruence.
    - right. destruct F as [F|F]; [left; exact F|right]. split; [reflexivity|exact F].
  Qed.

  Lemma add_all_ok : forall ts own H X s i e c, Inv own H X s -> In i X -> ed s i = Some e -> e_src e = Some c -> asg_of s c <> Unknown -> e_neg e = false ->
    (forall t, In t ts -> depth t = depth c /\ undone s t) ->
    exists s', each (fun s t => add_dependency ceq addr s t i) ts s = Ok s' /\ Inv own H X s' /\ (forall x, asg_of s' x = asg_of s x) /\
      s_W s' = s_W s /\ s_N s' = s_N s /\ s_D s' = s_D s /\ (forall x, incl (deps s x) (deps s' x)) /\ (forall t, In t ts -> In i (deps s' t)) /\
      (exists e', ed s' i = Some e' /\ sem e' = sem e).
  Proof.
    induction ts as [|t ts IH]; intros own H X s i e c I Hi E Es Hu Hn Ht.
    - exists s. split; [reflexivity|]. split; [exact I|]. do 4 (split; [reflexivity|]). split; [intros x; apply incl_refl|]. split; [intros t []|exists e; auto].
    - destruct (Ht t (or_introl eq_refl)) as (T1 & T2).
      destruct (@add_ok conf ceq g val depth addr own H X s i e c t I Hi E Es Hu) as (s1 & F1 & F2 & F3 & F4 & F5 & F6 & F7 & F8 & F9 & (e1 & F10 & F11) & F12).
      { rewrite Hn. lia. } { exact T2. } { congruence. }
      destruct (IH own H X s1 i e1 c F2 Hi F10) as (s2 & G1 & G2 & G3 & G4 & G5 & G6 & G7 & G8 & (e2 & G9 & G10)).
      { rewrite (sem_src F11). exact Es. } { rewrite F3. exact Hu. } { rewrite (sem_neg F11). exact Hn. }
      { intros x Hx. unfold undone. rewrite F3. apply Ht. right. exact Hx. }
      exists s2. cbn [each]. rewrite F1. cbn [bind]. split; [exact G1|]. split; [exact G2|]. split; [intros x; rewrite G3; apply F3|]. do 3 (split; [congruence|]).
      split; [intros x; eapply incl_tran; [apply F8|apply G7]|]. split; [intros x [<-|Hx]; [apply G7; exact F9|auto]|]. exists e2. split; [exact G9|congruence].
  Qed.

  Lemma check_full_ok : forall own s i e, Inv own [i] [i] s -> ed s i = Some e ->
    (forall c, e_processed e = true -> e_neg e = true -> e_handled e = false -> e_src e = Some c -> asg_of s c = Zero ->
       decided s (e_tgts e) = true \/ forall t, In t (e_tgts e) -> asg_of s t <> Unknown /\ (asg_of s t = One \/ ~ val t)) ->
    (e_processed e = false -> e_ref e = 1%Z) ->
    exists own' s', check_full ceq g addr s i = Ok s' /\ Inv own' [i] [] s' /\ known s s'.
  Proof.
    intros own s i e I E PF1 PF2. assert (HiH : In i [i]) by (left; reflexivity).
    assert (M : mem [i] s i) by (right; right; right; left; exact HiH). destruct (get_ok ceq I M) as (e0 & c & G & E0 & Es & Hr & Hu & Hown). rewrite E in E0. injection E0 as <-.
    assert (B := proj2 I).
    assert (Only : e_processed e = false -> ~ In i (s_N s) /\ ~ In i (s_D s) /\ (forall c, ~ In i (deps s c)) /\ ~ In i (s_W s)).
    { intros Hp. destruct (only_held ceq i I HiH E (PF2 Hp)) as (NL & ND & _). split; [intros K; apply NL; right; left; exact K|]. split; [intros K; apply NL; right; right; exact K|].
      split; [exact ND|]. intros K. apply NL. left. exact K. }
    assert (Early : settled s e -> Inv own [i] [] s).
    { intros Hs. eapply (@Inv_X conf g val depth own _ [i] [] s I); [intros j []|]. intros j ej [<-|[]] _ Ej. rewrite E in Ej. injection Ej as <-. split.
      - intros x K1 K2 K3. destruct Hs as [Hs|(y & Hs1 & Hs2)]; congruence.
      - destruct (e_processed e) eqn:Ep; [left; reflexivity|right]. destruct (Only eq_refl) as (K1 & K2 & K3 & K4). apply occ_nin in K4. repeat split; auto. lia. }
    unfold check_full, check_edge. rewrite G. cbn [bind fst snd]. destruct (scan s (e_tgts e) None) as [[[ts allOne] hasCZ] last] eqn:Eq.
    destruct (scan_spec _ _ _ Eq) as (C1 & C2 & C3 & C4 & C5 & C6 & _ & C8). cbn [fst snd].
    set (e1 := mkEdge (e_src e) ts (e_neg e) (e_status e) (e_processed e) (e_handled e) (e_ref e)). set (s1 := set_edge s i e1).
    destruct (e_handled e) eqn:Hhd; [exists own, s; split; [reflexivity|split; [apply Early; left; exact Hhd|apply known_same; reflexivity]]|].
    destruct (done (asg_of s c)) eqn:Hd.
    { exists own, s. destruct (Z.eqb_spec (e_ref e) 0); [lia|]. split; [reflexivity|]. split; [apply Early; right; exists c; split; [exact Es|intros K; rewrite K in Hd; discriminate]|apply known_same; reflexivity]. }
    assert (Hc : asg_of s c = Zero) by (destruct (asg_of s c); try discriminate; [congruence|reflexivity]).
    assert (E1 : ed s1 i = Some e1) by (eapply ed_set; exact E).
    destruct (@owner conf ceq g val depth own [i] [i] s i I e c M E Es Hhd Hc) as (k & h & Hk & Hg & Hin & O).
    assert (I1 : Inv own [i] [i] s1).
    { apply edge_change with (e := e); auto.
      - intros Hw. assert (K := b_W B i Hw E). intros x K1 K2 K3 K4 K5 t Ht. apply (K x K1 K2 Hhd K4 K5 t). apply C1. exact Ht.
      - intros x K1 K2 K3 K4 K5 t Ht Hut. eapply (b_pdeps B); [exact Hc|exact Hk|exact E|exact K4|exact K5|apply C1; exact Ht|exact Hut]. }
    destruct O as (O1 & O2 & O3 & O4 & O5).
    assert (O : edge_ok s1 c h e1).
    { unfold edge_ok. cbn. split; [exact Es|]. split; [exact O2|]. split; [reflexivity|]. split; [eapply incl_tran; eauto|]. intros t Ht. destruct (O5 t Ht) as [K|K]; [|auto]. destruct (C2 t K); auto. }
    assert (Hne : e_neg e1 = e_neg e) by reflexivity. assert (Hts : e_tgts e1 = ts) by reflexivity. assert (Hpr : e_processed e1 = e_processed e) by reflexivity.
    assert (Hs1 : e_src e1 = Some c) by exact Es. assert (Hc1 : asg_of s1 c = Zero) by exact Hc. assert (Hh1 : e_handled e1 = false) by reflexivity.
    assert (Hdep : forall t, In t ts -> depth t = depth c + (if e_neg e then 1 else 0)).
    { intros t Ht. rewrite O2. apply (lev_depth Hlev c h t Hin). apply O4, C1, Ht. }
    (* common endings *)
    assert (Hhandle : blocked s1 h -> exists own' s', (s0 <- handle ceq false s1 i ;; e <- rd (s_edges s0) i ;;
        let s := if (0 <? e_ref e)%Z && negb false then set_edge s0 i (mkEdge (e_src e) (e_tgts e) (e_neg e) (e_status e) true (e_handled e) (e_ref e)) else s0 in
        if (e_ref e =? 0)%Z then release s i else Ok s) = Ok s' /\ Inv own' [i] [] s' /\ known s s').
    { intros Hb. destruct (@handle_old own [i] [i] s1 i e1 c k h I1 HiH E1 Hs1 Hc1 Hk Hg Hb) as (own2 & s2 & F1 & F2 & F3 & e2 & F4 & F5).
      destruct (@finish_ok own2 s2 i e2 F2 F4 (or_introl F5)) as (s3 & K1 & K2 & K3). exists own2, s3. rewrite F1. cbn [bind]. split; [exact K1|]. split; [exact K2|].
      eapply known_trans; [|exact K3]. exact F3. }
    assert (Hassign : val c -> exists own' s', (s0 <- final_assign ceq s1 c One ;; e <- rd (s_edges s0) i ;;
        let s := if (0 <? e_ref e)%Z && negb false then set_edge s0 i (mkEdge (e_src e) (e_tgts e) (e_neg e) (e_status e) true (e_handled e) (e_ref e)) else s0 in
        if (e_ref e =? 0)%Z then release s i else Ok s) = Ok s' /\ Inv own' [i] [] s' /\ known s s').
    { intros Hv. destruct (@final_old own [i] [i] s1 c One i e1 I1 Hc1 (or_introl (conj eq_refl Hv)) HiH E1 Hs1) as (s2 & F1 & F2 & F3 & e2 & F4 & F5).
      destruct (@finish_ok own s2 i e2 F2 F4 (or_introl F5)) as (s3 & K1 & K2 & K3). exists own, s3. rewrite F1. cbn [bind]. split; [exact K1|]. split; [exact K2|].
      eapply known_trans; [|exact K3]. exact F3. }
    (* exploration of an unknown target, or nothing *)
    assert (Hexp : forall s2 t, Inv own [i] [i] s2 -> dist s2 t = depth t -> undone s2 t ->
      exists own' s3, (if asg_eq (asg_of s2 t) Unknown then explore ceq g addr s2 t else Ok s2) = Ok s3 /\ Inv own' [i] [i] s3 /\ ex t [i] s2 s3).
    { intros s2 t I2 Hdt Hut. destruct (asg_eq (asg_of s2 t) Unknown) eqn:Ea.
      - apply asg_eq_spec in Ea. apply (@explore_ok conf ceq g val depth addr Hsol own [i] [i] s2 t I2 Ea Hdt). apply incl_refl.
      - exists own, s2. split; [reflexivity|]. split; [exact I2|]. apply asg_eq_no in Ea. split; auto using incl_refl.
        + intros q eq _ Q. exists eq. auto.
        + left. split; [|reflexivity]. unfold undone in Hut. destruct (asg_of s2 t); try discriminate; congruence. }
    assert (Hknown : forall s2 s3 t, ex t [i] s2 s3 -> known s2 s3).
    { intros s2 s3 t X3. apply known_at with t; [apply X3|]. destruct (x_c X3) as [(K & _)|(K & _)]; intros K'; rewrite K' in K; discriminate. }
    destruct (e_neg e) eqn:Eneg.
    - destruct allOne.
      + apply Hhandle. unfold blocked. rewrite <- O2. intros t Ht. destruct (O5 t Ht) as [K|K]; [apply C3; auto|exact K].
      + destruct hasCZ.
        * apply Hassign. destruct (C4 eq_refl) as (t & T2 & T3). eapply (fires_neg Hsol t Hin O); [exact Hne|exact T2|]. apply (b_czero B t T3).
        * destruct last as [t|]; [|exfalso; apply C8; reflexivity].
          destruct C6 as [C6|(t0 & Ht & C6)]; [discriminate|]. injection C6 as ->. rename t0 into t.
          assert (Hut : undone s t) by (apply C5; auto).
          destruct (lev_neg Hlev c h Hin (eq_sym O2)) as (t1 & Ht1). assert (Hall : forall x, In x ts -> x = t).
          { intros x Hx. assert (K1 : In x (h_targets h)) by (apply O4, C1, Hx). assert (K2 : In t (h_targets h)) by (apply O4, C1, Ht). rewrite Ht1 in K1, K2.
            destruct K1 as [<-|[]]. destruct K2 as [<-|[]]. reflexivity. }
          assert (Hpz : e_processed e = true -> asg_of s t = Zero /\ ~ val t).
          { intros Hp. assert (Hte : In t (e_tgts e)) by (apply C1; exact Ht). destruct (PF1 c Hp eq_refl eq_refl Es Hc) as [K|K].
            - exfalso. rewrite decided_spec in K. destruct K as [K|(x & K1 & K2)].
              + unfold undone in Hut. rewrite (K t Hte) in Hut. discriminate.
              + destruct (C2 x K1) as [K3|K3]; [|congruence]. rewrite (Hall x K3) in K2. unfold undone in Hut. rewrite K2 in Hut. discriminate.
            - destruct (K t Hte) as (K1 & K2). unfold undone in Hut. destruct (asg_of s t); try discriminate; [congruence|]. split; [reflexivity|]. destruct K2 as [K2|K2]; [discriminate|exact K2]. }
          change (asg_of s1 t) with (asg_of s t).
          destruct (e_processed e) eqn:Ep.
          { destruct (Hpz eq_refl) as (K1 & K2). rewrite K1. cbn [asg_eq andb]. apply Hassign. eapply (fires_neg Hsol t Hin O); [exact Hne|exact Ht|exact K2]. }
          rewrite andb_false_r. destruct (Only eq_refl) as (NN & ND & NP & NW).
          assert (G1 : get s1 i = Ok (e1, c)).
          { assert (M1 : mem [i] s1 i) by (right; right; right; left; exact HiH). destruct (get_ok ceq I1 M1) as (e0 & c0 & G1 & E0 & Es0 & _). rewrite E1 in E0. injection E0 as <-. rewrite Hs1 in Es0. injection Es0 as <-. exact G1. }
          assert (P : exists s2, push_negation s1 i = Ok s2 /\ Inv own [i] [i] s2 /\ (forall x, s_cfg s2 x = s_cfg s x) /\ s_W s2 = s_W s /\ (In i (s_N s2) \/ In i (s_D s2)) /\
            exists e2, ed s2 i = Some e2 /\ sem e2 = sem e1).
          { unfold push_negation. rewrite G1. cbn [bind fst snd].
            assert (Ee : forall W N D, ed (set_lists (set_edge s1 i (set_push e1 3)) W N D) i = Some (set_push e1 3)) by (intros W N D; exact (@ed_set conf s1 i e1 (set_push e1 3) E1)).
            destruct (decided (set_edge s1 i (set_push e1 3)) (e_tgts e1)) eqn:Ed; (eexists; split; [reflexivity|]; split; [|split; [reflexivity|split; [reflexivity|split; [|exists (set_push e1 3); split; [apply Ee|reflexivity]]]]]).
            - apply (@push_D_ok conf ceq g val depth addr own [i] [i] s1 i e1 3 I1 HiH E1 (or_intror HiH)). intros x _ _ _ _. exact Ed.
            - right. cbn. apply in_or_app. right. left. reflexivity.
            - apply (@push_N_ok conf ceq g val depth addr own [i] [i] s1 i e1 3 I1 HiH E1 (or_intror HiH)).
            - left. cbn. apply in_or_app. right. left. reflexivity. }
          destruct P as (s2 & P1 & P2 & P3 & P4 & P5 & e2 & P6 & P7). rewrite P1. cbn [bind].
          assert (A2 : forall x, asg_of s2 x = asg_of s x) by (intros x; unfold asg_of; rewrite P3; reflexivity).
          destruct (@add_ok conf ceq g val depth addr own [i] [i] s2 i e2 c t P2 HiH P6) as (s3 & F1 & F2 & F3 & F4 & F5 & F6 & F7 & F8 & F9 & (e3 & F10 & F11) & F12).
          { rewrite (sem_src P7). exact Hs1. } { rewrite A2, Hc. discriminate. } { rewrite (sem_neg P7), Hne. apply Hdep. exact Ht. } { unfold undone. rewrite A2. exact Hut. }
          { intros _ x Hx. rewrite (sem_tgts P7) in Hx. apply Hall. exact Hx. }
          rewrite F1. cbn [bind].
          destruct (Hexp s3 t F2 F12) as (own4 & s4 & L1 & L2 & L3).
          { unfold undone. rewrite F3, A2. exact Hut. }
          rewrite L1. cbn [bind].
          destruct (x_sem L3 i HiH F10) as (e4 & L4 & L5). assert (Sm : sem e4 = sem e1) by congruence.
          destruct (@finish_ok own4 s4 i e4 L2 L4) as (s5 & K1 & K2 & K3).
          { right. split; [|split].
            - intros Hw. exfalso. apply NW. rewrite <- P4, <- F5. apply (x_W L3 i HiH Hw).
            - rewrite (sem_neg Sm), Hne. discriminate.
            - rewrite (sem_neg Sm), Hne, (sem_tgts Sm), Hts. destruct P5 as [P5|P5].
              + right. split; [rewrite (x_N L3), F6; exact P5|]. intros x Hx. rewrite (Hall x Hx). destruct (x_c L3) as [(K & _)|(K & _)]; intros K'; rewrite K' in K; discriminate.
              + left. apply (x_D L3). rewrite F7. exact P5. }
          exists own4, s5. split; [exact K1|]. split; [exact K2|]. eapply known_trans; [|exact K3]. eapply known_trans; [|eapply Hknown; exact L3]. apply known_same. intros x. rewrite F3. apply A2.
    - destruct allOne.
      + apply Hassign. eapply (fires_one Hsol I1 Hin O); [exact Hne|]. intros t Ht. apply C3; auto.
      + destruct hasCZ.
        * apply Hhandle. unfold blocked. rewrite <- O2. destruct (C4 eq_refl) as (t & T2 & T3). exists t. split; [apply O4, C1; exact T2|exact T3].
        * destruct last as [t|]; [|exfalso; apply C8; reflexivity].
          destruct C6 as [C6|(t0 & Ht & C6)]; [discriminate|]. injection C6 as ->. rename t0 into t.
          assert (Hut : undone s t) by (apply C5; auto).
          assert (P : exists s2, (if negb (e_processed e) && negb (done (asg_of s1 t)) then each (fun s t => add_dependency ceq addr s t i) ts s1 else Ok s1) = Ok s2 /\
            Inv own [i] [i] s2 /\ (forall x, asg_of s2 x = asg_of s x) /\ (forall x, In x ts -> In i (deps s2 x)) /\ exists e2, ed s2 i = Some e2 /\ sem e2 = sem e1).
          { destruct (e_processed e) eqn:Ep; cbn [negb andb].
            - exists s1. split; [reflexivity|]. split; [exact I1|]. split; [reflexivity|]. split; [|exists e1; auto].
              intros x Hx. eapply (b_pdeps (proj2 I1)); [exact Hc1|exact Hk|exact E1|exact Hne|exact Hpr|exact Hx|]. apply (C5 eq_refl x Hx).
            - change (asg_of s1 t) with (asg_of s t). rewrite Hut. cbn [negb].
              destruct (@add_all_ok ts own [i] [i] s1 i e1 c I1 HiH E1 Hs1) as (s2 & F1 & F2 & F3 & F4 & F5 & F6 & F7 & F8 & F9).
              { rewrite Hc1. discriminate. } { exact Hne. }
              { intros x Hx. split; [rewrite (Hdep x Hx); lia|apply (C5 eq_refl x Hx)]. }
              exists s2. split; [exact F1|]. split; [exact F2|]. split; [exact F3|]. split; [exact F8|exact F9]. }
          destruct P as (s2 & P1 & P2 & P3 & P4 & e2 & P5 & P6). rewrite P1. cbn [bind].
          destruct (Hexp s2 t P2) as (own4 & s4 & L1 & L2 & L3).
          { apply (b_dist2 (proj2 P2)). intros K. specialize (P4 t Ht). rewrite K in P4. destruct P4. } { unfold undone. rewrite P3. exact Hut. }
          rewrite L1. cbn [bind].
          destruct (x_sem L3 i HiH P5) as (e4 & L4 & L5). assert (Sm : sem e4 = sem e1) by congruence.
          assert (A4 : forall x, x <> t -> asg_of s4 x = asg_of s x) by (intros x Hx; unfold asg_of; rewrite (x_cfg L3 Hx); apply P3).
          destruct (@finish_ok own4 s4 i e4 L2 L4) as (s5 & K1 & K2 & K3).
          { right. rewrite (sem_neg Sm), Hne, (sem_tgts Sm), Hts. split; [|split].
            - intros _ x K. discriminate.
            - intros _ x Hx Hux. destruct (ceq x t) as [->|Hn]; [|unfold deps; rewrite (x_cfg L3 Hn); apply P4; exact Hx].
              destruct (x_c L3) as [(_ & K)|(K & _)]; [rewrite K; apply P4; exact Hx|]. unfold undone in Hux. congruence.
            - destruct (x_c L3) as [(K & _)|(K & K')].
              + right. split; [exists t; auto|]. intros x Hx. destruct (ceq x t) as [->|Hn]; [unfold undone; rewrite K; reflexivity|]. unfold undone. rewrite (A4 x Hn). apply (C5 eq_refl x Hx).
              + left. destruct (ceq c t) as [<-|Hn].
                * exfalso. assert (Hz : asg_of s2 c = Zero) by (rewrite P3; exact Hc). rewrite Hz in L1. cbn in L1. injection L1 as <-. rewrite Hz in K. discriminate.
                * apply (K' i e2 c HiH (P4 t Ht) P5); [rewrite (sem_src P6); exact Hs1|exact Hn|]. unfold undone. rewrite P3, Hc. reflexivity. }
          exists own4, s5. split; [exact K1|]. split; [exact K2|]. eapply known_trans; [|exact K3]. eapply known_trans; [|eapply Hknown; exact L3]. apply known_same. exact P3.
  Qed.
End Run.
