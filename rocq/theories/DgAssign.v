(** The invariant under final assignments, dependencies and handled edges. *)
From Verif Require Import Base BaseLemmas DgSpec DgModel DgInv DgOps DgSteps.
Set Implicit Arguments.

Section Assign.
  Variable conf : Type.
  Variable ceq : forall a b : conf, {a = b} + {a <> b}.
  Variable g : graph conf.
  Variable val : conf -> Prop.
  Variable depth : conf -> nat.
  Variable addr : nat -> nat.
  Notation st := (st conf).
  Notation edge := (edge conf).
  Notation Sem := (Sem g val depth).
  Notation Inv := (Inv g val depth).
  Notation okW := (okW val).
  Notation settles := (settles val).

  (** what the steps below leave alone, apart from the edges in [l] *)
  Record keeps (H l : list nat) (s s' : st) : Prop := {
    k_W : s_W s' = s_W s;
    k_N : s_N s' = s_N s;
    k_D : incl (s_D s) (s_D s');
    k_Do : forall j, ~ In j l -> occ (s_D s') j = occ (s_D s) j;
    k_rec : incl (s_rec s) (s_rec s');
    k_ed : forall j, ~ In j l -> ed s' j = ed s j;
    k_sem : forall j e, mem H s' j -> ed s j = Some e -> exists e', ed s' j = Some e' /\ sem e' = sem e
  }.

  Lemma final_loop : forall a l own H X s, Inv own (l ++ H) (l ++ X) s -> incl X H ->
    (forall j e, In j l -> ed s j = Some e -> (e_processed e = true \/ In j X) /\ (e_neg e = true -> decided s (e_tgts e) = true)) ->
    exists s', each (final_dep a) l s = Ok s' /\ Inv own H X s' /\ (forall c, s_cfg s' c = s_cfg s c) /\ keeps H l s s' /\
      (forall j e x, In j l -> ed s j = Some e -> e_src e = Some x -> undone s x -> In j (s_D s')).
  Proof.
    intros a. induction l as [|i l IH]; intros own H X s I HX Hl.
    - exists s. split; [reflexivity|]. split; [exact I|]. split; [reflexivity|]. split; [|intros j e x []].
      split; auto using incl_refl. intros j e _ E. exists e. auto.
    - cbn [app] in I. assert (Hi : In i (i :: l ++ H)) by (left; reflexivity).
      assert (Mi : mem (i :: l ++ H) s i) by (right; right; right; left; exact Hi).
      destruct (get_ok ceq I Mi) as (e & c & G & E & Es & Hr & Hu & _).
      destruct (Hl i e (or_introl eq_refl) E) as (Hp & Hdec).
      assert (P : exists s1, (if done (asg_of s c) then Ok s else if negb (e_neg e) || asg_eq a CZero then push_dependency s i else push_negation s i) = Ok s1 /\
        Inv own (i :: l ++ H) (i :: l ++ X) s1 /\ (forall c, s_cfg s1 c = s_cfg s c) /\ s_W s1 = s_W s /\ s_N s1 = s_N s /\ incl (s_D s) (s_D s1) /\
        (forall j, j <> i -> occ (s_D s1) j = occ (s_D s) j) /\ s_rec s1 = s_rec s /\ (forall j, j <> i -> ed s1 j = ed s j) /\
        (exists e1, ed s1 i = Some e1 /\ sem e1 = sem e) /\ (undone s c -> In i (s_D s1))).
      { destruct (done (asg_of s c)) eqn:Hd.
        - exists s. split; [reflexivity|]. split; [exact I|]. do 3 (split; [reflexivity|]). split; [apply incl_refl|]. do 3 (split; [reflexivity|]).
          split; [exists e; auto|unfold undone; congruence].
        - assert (PD : forall stt, Inv own (i :: l ++ H) (i :: l ++ X) (set_lists (set_edge s i (set_push e stt)) (s_W s) (s_N s) (s_D s ++ [i]))).
          { intros stt. apply (push_D_ok ceq); auto; [right; left; reflexivity|]. intros x Hn _ _ _. auto. }
          assert (Fin : forall stt, let s1 := set_lists (set_edge s i (set_push e stt)) (s_W s) (s_N s) (s_D s ++ [i]) in
            Inv own (i :: l ++ H) (i :: l ++ X) s1 /\ (forall c, s_cfg s1 c = s_cfg s c) /\ s_W s1 = s_W s /\ s_N s1 = s_N s /\ incl (s_D s) (s_D s1) /\
            (forall j, j <> i -> occ (s_D s1) j = occ (s_D s) j) /\ s_rec s1 = s_rec s /\ (forall j, j <> i -> ed s1 j = ed s j) /\
            (exists e1, ed s1 i = Some e1 /\ sem e1 = sem e) /\ (undone s c -> In i (s_D s1))).
          { intros stt s1. split; [apply PD|]. split; [reflexivity|]. split; [reflexivity|]. split; [reflexivity|]. split; [apply incl_appl, incl_refl|].
            split; [|split; [reflexivity|split; [|split]]].
            - intros j Hj. cbn. rewrite occ_snoc. destruct (Nat.eq_dec i j); [congruence|lia].
            - intros j Hj. exact (@ed_set_ne conf s i j (set_push e stt) Hj).
            - exists (set_push e stt). split; [|reflexivity]. exact (@ed_set conf s i e (set_push e stt) E).
            - intros _. cbn. apply in_or_app. right. left. reflexivity. }
          destruct (negb (e_neg e) || asg_eq a CZero) eqn:Hb.
          + unfold push_dependency. rewrite G. cbn [bind fst snd]. rewrite Hd. eexists. split; [reflexivity|]. apply (Fin 2).
          + apply orb_false_iff in Hb. destruct Hb as (Hb & _). apply negb_false_iff in Hb. unfold push_negation. rewrite G. cbn [bind fst snd].
            assert (Hdd : decided (set_edge s i (set_push e 3)) (e_tgts e) = true) by (rewrite <- (Hdec Hb); apply decided_same; reflexivity).
            rewrite Hdd. eexists. split; [reflexivity|]. apply (Fin 3). }
      destruct P as (s1 & P1 & P2 & P3 & P4 & P5 & P6 & P7 & P8 & P9 & (e1 & P10 & P10') & P11).
      assert (J : Inv own (i :: l ++ H) (l ++ X) s1).
      { eapply (@Inv_X conf g val depth own _ (i :: l ++ X) (l ++ X) s1 P2); [apply incl_tl, incl_refl|].
        intros j ej [<-|Hj] Hj'; [|contradiction]. intros Ej. rewrite P10 in Ej. injection Ej as <-. split.
        - intros x Hx _ Hz. right. left. apply P11. rewrite (sem_src P10'), Es in Hx. injection Hx as <-. unfold undone. unfold asg_of in *. rewrite P3 in Hz. rewrite Hz. reflexivity.
        - left. rewrite (sem_proc P10'). destruct Hp as [Hp|Hp]; [exact Hp|]. exfalso. apply Hj'. apply in_or_app. auto. }
      destruct (@drop_ok conf ceq g val depth own (i :: l ++ H) (l ++ H) (l ++ X) s1 i J) as (s2 & Q1 & Q2 & Q3 & Q4 & Q5 & Q6 & Q7 & Q8 & Q9 & Q10).
      { reflexivity. } { apply incl_app; [apply incl_appl, incl_refl|apply incl_appr; exact HX]. }
      assert (Sm : forall j ej, mem (l ++ H) s2 j -> ed s j = Some ej -> exists e', ed s2 j = Some e' /\ sem e' = sem ej).
      { intros j ej Mj Ej. destruct (Nat.eq_dec j i) as [->|Hn].
        - rewrite E in Ej. injection Ej as <-. destruct (Q9 Mj e1 P10) as (e' & K1 & K2). exists e'. split; [exact K1|congruence].
        - exists ej. rewrite (Q8 j Hn), (P9 j Hn). auto. }
      destruct (IH own H X s2 Q2 HX) as (s' & R1 & R2 & R3 & R4 & R5).
      { intros j ej Hj Ej. assert (Mj : mem (l ++ H) s2 j) by (right; right; right; left; apply in_or_app; auto).
        assert (Hj0 : exists e0, ed s j = Some e0 /\ sem ej = sem e0).
        { destruct (Nat.eq_dec j i) as [->|Hn].
          - exists e. split; [exact E|]. destruct (Sm i e Mj E) as (e' & K1 & K2). congruence.
          - exists ej. rewrite <- (P9 j Hn), <- (Q8 j Hn). auto. }
        destruct Hj0 as (e0 & Ej0 & Hsem). destruct (Hl j e0 (or_intror Hj) Ej0) as (K1 & K2). rewrite (sem_proc Hsem), (sem_neg Hsem), (sem_tgts Hsem).
        split; [exact K1|]. intros Hn. rewrite <- (K2 Hn). apply decided_same. intros t. unfold asg_of. rewrite Q3, P3. reflexivity. }
      exists s'. split.
      { cbn [each]. unfold final_dep at 1. rewrite G. cbn [bind fst snd]. rewrite P1. cbn [bind]. rewrite Q1. cbn [bind]. exact R1. }
      split; [exact R2|]. split; [intros x; rewrite R3, Q3, P3; reflexivity|]. split.
      + destruct R4 as [T1 T2 T3 T4 T5 T6 T7]. split.
        * congruence.
        * congruence.
        * intros x Hx. apply T3. rewrite Q6. apply P6. exact Hx.
        * intros j Hj. rewrite T4, Q6, P7; auto; intros K; apply Hj; [left; auto|right; auto].
        * intros x Hx. apply T5, Q7. rewrite P8. exact Hx.
        * intros j Hj. rewrite T6, Q8, P9; auto; intros K; apply Hj; [left|left|right]; auto.
        * intros j ej Mj Ej. assert (Mj' : mem (l ++ H) s2 j).
          { destruct Mj as [K|[K|[K|[K|(x & K)]]]].
            - left. congruence.
            - right. left. congruence.
            - destruct (in_dec Nat.eq_dec j l) as [Hj|Hj]; [right; right; right; left; apply in_or_app; auto|].
              right. right. left. apply occ_in. rewrite <- (T4 j Hj). apply occ_in. exact K.
            - right. right. right. left. apply in_or_app. auto.
            - right. right. right. right. exists x. unfold deps in *. rewrite R3 in K. exact K. }
          destruct (Sm j ej Mj' Ej) as (e2 & K1 & K2). destruct (T7 j e2 Mj K1) as (e3 & K3 & K4). exists e3. split; [exact K3|congruence].
      + intros j ej x [<-|Hj] Ej Hx Hux.
        * apply (k_D R4). rewrite Q6. apply P11. rewrite E in Ej. injection Ej as <-. rewrite Es in Hx. injection Hx as <-. exact Hux.
        * assert (Mj : mem (l ++ H) s2 j) by (right; right; right; left; apply in_or_app; auto). destruct (Sm j ej Mj Ej) as (e2 & K1 & K2).
          apply (R5 j e2 x Hj K1); [rewrite (sem_src K2); exact Hx|]. unfold undone, asg_of in *. rewrite Q3, P3. exact Hux.
  Qed.

  Lemma final_assign_ok : forall own H X s c a, Inv own H X s -> asg_of s c = Zero -> settles c a ->
    exists s', final_assign ceq s c a = Ok s' /\ Inv own H X s' /\ (forall x, x <> c -> s_cfg s' x = s_cfg s x) /\ asg_of s' c = a /\ deps s' c = [] /\ 
      keeps H (deps s c) s s' /\
      (forall j e x, In j (deps s c) -> ed s j = Some e -> e_src e = Some x -> undone s x -> x <> c -> In j (s_D s')).
  Proof.
    intros own H X s c a I Hc Ha. assert (J := @assign_ok conf ceq g val depth own H X s c a I Hc Ha).
    set (s1 := set_cfg ceq s c (mkCfg a 0 (dist s c) [])) in *. destruct I as ((L & R) & B).
    assert (Hd : done a = true) by (destruct Ha as [(-> & _)|(-> & _)]; reflexivity).
    destruct (@final_loop a (deps s c) own H X s1 J (b_X B)) as (s' & K1 & K2 & K3 & K4 & K5).
    { intros j e Hj E. assert (M : mem H s j) by (right; right; right; right; exists c; exact Hj). split.
      - destruct (e_processed e) eqn:Ep; [auto|]. right. destruct (in_dec Nat.eq_dec j X) as [G|G]; [exact G|]. exfalso.
        destruct (mem_ref ceq R M) as (e2 & E2 & E3 & E4). change (ed s1 j) with (ed s j) in E. rewrite E in E2. injection E2 as <-.
        assert (Hr : (0 <= e_ref e)%Z) by lia. destruct (b_un B j E Hr Ep G) as (_ & _ & U & _). apply (U c Hj).
      - intros Hn. apply decided_spec. assert (T := b_deps B j c Hj E Hn).
        assert (Ac : asg_of s1 c = a) by (unfold s1; rewrite asg_set; destruct (ceq c c); [reflexivity|congruence]).
        destruct (e_tgts e) as [|t ts]; [left; intros t []|]. assert (t = c) by (apply T; left; reflexivity). subst t.
        destruct Ha as [(-> & _)|(-> & _)]; [left; intros t Ht; rewrite (T t Ht); exact Ac|right; exists c; split; [left; reflexivity|exact Ac]]. }
    exists s'. split; [exact K1|]. split; [exact K2|]. split.
    { intros x Hx. rewrite K3. unfold s1, set_cfg. cbn. destruct (ceq x c); [congruence|reflexivity]. }
    split; [unfold asg_of; rewrite K3; unfold s1, set_cfg; cbn; destruct (ceq c c); [reflexivity|congruence]|].
    split; [unfold deps; rewrite K3; unfold s1, set_cfg; cbn; destruct (ceq c c); [reflexivity|congruence]|]. split.
    - destruct K4 as [T1 T2 T3 T4 T5 T6 T7]. split; auto.
    - intros j e x Hj E Hx Hu Hn. apply (K5 j e x Hj E Hx). unfold undone, s1. rewrite asg_set. destruct (ceq x c); [congruence|exact Hu].
  Qed.

  (** * A change of targets and of the processed flag *)
  Lemma edge_change : forall own H X s i e e', Inv own H X s -> In i X -> ed s i = Some e ->
    e_src e' = e_src e -> e_neg e' = e_neg e -> e_handled e' = e_handled e -> e_ref e' = e_ref e -> e_status e' = e_status e ->
    incl (e_tgts e') (e_tgts e) -> (forall t, In t (e_tgts e) -> In t (e_tgts e') \/ asg_of s t = One) ->
    (In i (s_W s) -> okW s e') ->
    (forall c, e_src e = Some c -> e_handled e = false -> asg_of s c = Zero -> e_neg e = false -> e_processed e' = true -> forall t, In t (e_tgts e') -> undone s t -> In i (deps s t)) ->
    Inv own H X (set_edge s i e').
  Proof.
    intros own H X s i e e' ((L & R) & B) Hi E F1 F2 F3 F4 F5 F6 F7 KW KP. set (s' := set_edge s i e').
    assert (M : mem H s i) by (right; right; right; left; apply (b_X B); exact Hi). destruct (mem_ref ceq R M) as (e2 & E6 & E7 & E8). rewrite E in E6. injection E6 as <-.
    assert (Ei : ed s' i = Some e') by (eapply ed_set; exact E).
    assert (En : forall j, j <> i -> ed s' j = ed s j) by (intros j Hj; exact (@ed_set_ne conf s i j e' Hj)).
    split.
    - exists L. apply Refs_step with (L := L) (H := H) (s := s) (i := i) (e' := e'); auto; try (solve [apply R]).
      + apply (mem_rec ceq R M).
      + change (tot L H s' i) with (tot L H s i). congruence.
      + intros Hs. rewrite F5 in Hs. apply (r_status R i E Hs).
    - split; try (solve [apply B]).
      + intros j Mj. change (mem H s j) in Mj. destruct (b_live B Mj) as (ej & c & E1 & E2 & E3 & E4 & E5). destruct (Nat.eq_dec j i) as [->|Hn].
        * rewrite E in E1. injection E1 as <-. exists e', c. rewrite F1, F3, F4. auto.
        * exists ej, c. rewrite (En j Hn). auto.
      + intros c k h j Hc Hh Hk. destruct (b_edge B c k Hc Hh Hk) as (ej & E1 & (O1 & O2 & O3 & O4 & O5) & E3). destruct (Nat.eq_dec j i) as [->|Hn].
        * rewrite E in E1. injection E1 as <-. exists e'. split; [exact Ei|]. split; [|left; exact Hi]. unfold edge_ok. rewrite F1, F2, F3.
          split; [exact O1|]. split; [exact O2|]. split; [exact O3|]. split; [eapply incl_tran; eauto|]. intros t Ht. destruct (O5 t Ht) as [K|K]; [|auto]. destruct (F7 t K); auto.
        * exists ej. rewrite (En j Hn). split; [exact E1|]. split; [|exact E3]. unfold edge_ok. auto.
      + intros j ej t Hj Ej Hn x Hx. destruct (Nat.eq_dec j i) as [->|Hn'].
        * rewrite Ei in Ej. injection Ej as <-. rewrite F2 in Hn. apply (b_deps B i t Hj E Hn). auto.
        * rewrite (En j Hn') in Ej. apply (b_deps B j t Hj Ej Hn x Hx).
      + intros c k j ej t Hc Hk Ej Hn Hp Ht Hu. destruct (Nat.eq_dec j i) as [->|Hn'].
        * rewrite Ei in Ej. injection Ej as <-. rewrite F2 in Hn.
          assert (Hg : exists h, nth_error (g c) k = Some h).
          { destruct (nth_error (g c) k) as [h|] eqn:Eh; [eauto|]. apply nth_error_None in Eh. rewrite <- (proj1 (b_own B c Hc)) in Eh. apply nth_lt in Hk. lia. }
          destruct Hg as (h & Hg). destruct (b_edge B c k Hc Hg Hk) as (e2 & E2 & (O1 & _ & O3 & _) & _). rewrite E in E2. injection E2 as <-.
          apply (KP c O1 O3 Hc Hn Hp t Ht Hu).
        * rewrite (En j Hn') in Ej. eapply (b_pdeps B); [exact Hc|exact Hk|exact Ej|exact Hn|exact Hp|exact Ht|exact Hu].
      + intros j ej Hj Ej. destruct (Nat.eq_dec j i) as [->|Hn'].
        * rewrite Ei in Ej. injection Ej as <-. apply KW. exact Hj.
        * rewrite (En j Hn') in Ej. apply (b_W B j Hj Ej).
      + intros j ej Hj Ej. destruct (Nat.eq_dec j i) as [->|Hn'].
        * rewrite Ei in Ej. injection Ej as <-. assert (K := b_D B i Hj E). intros c G1 G2 G3 G4. rewrite F2 in G1. rewrite F3 in G2. rewrite F1 in G3.
          specialize (K c G1 G2 G3 G4). rewrite decided_spec in *. destruct K as [K|(t & K1 & K2)]; [left|right; exists t].
          -- intros t Ht. apply (K t). apply F6. exact Ht.
          -- split; [|exact K2]. destruct (F7 t K1) as [K3|K3]; [exact K3|]. unfold asg_of in *. cbn in *. congruence.
        * rewrite (En j Hn') in Ej. apply (b_D B j Hj Ej).
      + intros j ej Ej Hr Hp Hj. destruct (Nat.eq_dec j i) as [->|Hn']; [contradiction|]. rewrite (En j Hn') in Ej. apply (b_un B j Ej Hr Hp Hj).
  Qed.

  (** * Dependencies *)
  Lemma insert_spec : forall i l, In i (fst (insert addr i l)) /\
    (forall j, occ (fst (insert addr i l)) j = occ l j + (if snd (insert addr i l) then (if Nat.eq_dec i j then 1 else 0) else 0)).
  Proof.
    intros i. induction l as [|x l IH]; cbn [insert].
    - cbn [fst snd]. split; [left; reflexivity|]. intros j. rewrite occ_one. reflexivity.
    - destruct (Nat.eqb_spec x i) as [->|Hn].
      + cbn [fst snd]. split; [left; reflexivity|]. intros j. lia.
      + destruct (addr i <? addr x); cbn [fst snd].
        * split; [left; reflexivity|]. intros j. rewrite (occ_cons i). lia.
        * destruct IH as (I1 & I2). split; [right; exact I1|]. intros j. rewrite !occ_cons, I2. lia.
  Qed.

  Lemma add_ok : forall own H X s i e c t, Inv own H X s -> In i X -> ed s i = Some e -> e_src e = Some c -> asg_of s c <> Unknown ->
    depth t = depth c + (if e_neg e then 1 else 0) -> undone s t -> (e_neg e = true -> forall x, In x (e_tgts e) -> x = t) ->
    exists s', add_dependency ceq addr s t i = Ok s' /\ Inv own H X s' /\ (forall x, asg_of s' x = asg_of s x) /\ (forall x, nsuccs s' x = nsuccs s x) /\
      s_W s' = s_W s /\ s_N s' = s_N s /\ s_D s' = s_D s /\ (forall x, incl (deps s x) (deps s' x)) /\ In i (deps s' t) /\ 
      (exists e', ed s' i = Some e' /\ sem e' = sem e) /\ dist s' t = depth t.
  Proof.
    intros own H X s i e c t I Hi E Es Hu Hdep Ht Hneg. assert (J := I). destruct J as ((L & R) & B).
    assert (M : mem H s i) by (right; right; right; left; apply (b_X B); exact Hi). destruct (get_ok ceq I M) as (e0 & c0 & G & E0 & Es0 & Hr0 & _).
    rewrite E in E0. injection E0 as <-. rewrite Es in Es0. injection Es0 as <-.
    destruct (mem_ref ceq R M) as (e2 & E6 & E7 & E8). rewrite E in E6. injection E6 as <-.
    unfold add_dependency. replace (asg_eq (c_asg (s_cfg s t)) One) with false by (symmetry; apply asg_eq_no; intros K; unfold undone, asg_of in Ht; rewrite K in Ht; discriminate).
    rewrite G. cbn [bind fst snd].
    set (sd := c_dist (s_cfg s c) + (if e_neg e then 1 else 0)). assert (Hsd : sd = depth t) by (unfold sd; rewrite Hdep; f_equal; apply (b_dist1 B c Hu)).
    destruct (insert_spec i (c_deps (s_cfg s t))) as (S1 & S2). set (p := insert addr i (c_deps (s_cfg s t))) in *.
    set (v := mkCfg (c_asg (s_cfg s t)) (c_nsuccs (s_cfg s t)) (Nat.max sd (c_dist (s_cfg s t))) (fst p)).
    set (e' := if snd p then set_ref e (e_ref e + 1) else e).
    set (s' := mkSt (s_cfg (set_cfg ceq s t v)) (upd (s_edges s) i e') (s_rec s) (s_W s) (s_N s) (s_D s)).
    assert (Es' : (if snd p then set_edge (set_cfg ceq s t v) i (set_ref e (e_ref e + 1)) else set_cfg ceq s t v) = s').
    { unfold s', e'. destruct (snd p); [reflexivity|]. unfold set_cfg. cbn. f_equal. clear - E. unfold ed in E. revert i E. induction (s_edges s) as [|y l IH]; intros [|i] E; cbn in *; try congruence.
      f_equal. apply IH. exact E. }
    rewrite Es'. exists s'. split; [reflexivity|]. clear Es'.
    assert (A0 : forall x, asg_of s' x = asg_of s x) by (intros x; unfold asg_of; cbn; destruct (ceq x t) as [->|]; reflexivity).
    assert (N0 : forall x, nsuccs s' x = nsuccs s x) by (intros x; unfold nsuccs; cbn; destruct (ceq x t) as [->|]; reflexivity).
    assert (D0 : forall x, deps s' x = if ceq x t then fst p else deps s x) by (intros x; unfold deps; cbn; destruct (ceq x t) as [->|]; reflexivity).
    assert (I0 : forall x, x <> t -> dist s' x = dist s x) by (intros x Hx; unfold dist; cbn; destruct (ceq x t) as [->|]; congruence).
    assert (I1 : dist s' t = depth t).
    { unfold dist. cbn. destruct (ceq t t); [|congruence]. cbn. rewrite Hsd. assert (K := b_dist B t). unfold dist in K. lia. }
    assert (Sm : sem e' = sem e) by (unfold e'; destruct (snd p); reflexivity).
    assert (Ei : ed s' i = Some e') by (eapply nth_upd_some; exact E).
    assert (En : forall j, j <> i -> ed s' j = ed s j) by (intros j Hj; apply nth_upd_ne; congruence).
    assert (Di : forall x, incl (deps s x) (deps s' x)).
    { intros x j Hj. rewrite D0. destruct (ceq x t) as [->|]; [|exact Hj]. apply occ_in. rewrite S2. apply occ_in in Hj. unfold deps in Hj. lia. }
    assert (Dj : forall x j, In j (deps s' x) -> In j (deps s x) \/ (j = i /\ x = t)).
    { intros x j Hj. rewrite D0 in Hj. destruct (ceq x t) as [->|]; [|auto]. destruct (Nat.eq_dec i j) as [->|Hn]; [auto|]. left. apply occ_in in Hj. rewrite S2 in Hj. apply occ_in. unfold deps.
      destruct (Nat.eq_dec i j); [congruence|]. destruct (snd p); lia. }
    assert (Mm : forall j, mem H s' j -> mem H s j).
    { intros j [K|[K|[K|[K|(x & K)]]]]; [left|right; left|right; right; left|right; right; right; left|]; try exact K. apply Dj in K.
      destruct K as [K|(-> & _)]; [right; right; right; right; exists x; exact K|exact M]. }
    split; [split|].
    - set (L' := if in_dec ceq t L then L else t :: L). exists L'.
      assert (NL : NoDup L') by (unfold L'; destruct (in_dec ceq t L); [apply R|constructor; [assumption|apply R]]).
      assert (Ht' : In t L') by (unfold L'; destruct (in_dec ceq t L); [assumption|left; reflexivity]).
      assert (Tt : forall j, depsum L' s j = depsum L s j).
      { intros j. unfold L'. destruct (in_dec ceq t L) as [K|K]; [reflexivity|]. cbn. rewrite (r_Ld R t K). reflexivity. }
      assert (Tc : forall j, depsum L' s' j = depsum L s j + (if snd p then (if Nat.eq_dec i j then 1 else 0) else 0)).
      { intros j. assert (T : depsum L' s' j + occ (deps s t) j = depsum L' s j + occ (deps s' t) j).
        { apply depsum_change; auto. intros x Hx. rewrite D0. destruct (ceq x t); congruence. }
        rewrite Tt in T. rewrite (D0 t) in T. destruct (ceq t t); [|congruence]. rewrite S2 in T. unfold deps in T. lia. }
      apply Refs_step with (L := L) (H := H) (s := s) (i := i) (e' := e'); auto.
      + intros x Hx. rewrite D0. destruct (ceq x t) as [->|]; [contradiction|]. apply (r_Ld R). intros K. apply Hx. unfold L'. destruct (in_dec ceq t L); [exact K|right; exact K].
      + apply (mem_rec ceq R M).
      + intros j Hj. unfold tot. rewrite Tc. cbn [s' s_W s_N s_D]. destruct (snd p); [destruct (Nat.eq_dec i j); [congruence|]|]; lia.
      + unfold tot. rewrite Tc. cbn [s' s_W s_N s_D]. destruct (Nat.eq_dec i i); [|congruence]. unfold tot in E7. unfold e'. destruct (snd p); cbn [e_ref set_ref]; lia.
      + intros Hs. apply (r_status R i E). unfold e' in Hs. destruct (snd p); exact Hs.
    - assert (Hi' : forall ej j, ed s' j = Some ej -> exists e0, ed s j = Some e0 /\ sem ej = sem e0).
      { intros ej j Ej. destruct (Nat.eq_dec j i) as [->|Hn]; [rewrite Ei in Ej; injection Ej as <-; exists e; auto|]. rewrite (En j Hn) in Ej. exists ej. auto. }
      assert (Hf : forall ej j, ed s j = Some ej -> (0 <= e_ref ej)%Z -> exists e0, ed s' j = Some e0 /\ sem e0 = sem ej /\ (0 <= e_ref e0)%Z).
      { intros ej j Ej Hr. destruct (Nat.eq_dec j i) as [->|Hn]; [|exists ej; rewrite (En j Hn); auto]. rewrite E in Ej. injection Ej as <-. exists e'. split; [exact Ei|]. split; [exact Sm|].
        unfold e'. destruct (snd p); cbn; lia. }
      split; try (solve [apply B]).
      + intros j Mj. destruct (b_live B (Mm j Mj)) as (ej & x & E1 & E2 & E3 & E4 & E5). destruct (Hf ej j E1 E3) as (e1 & K1 & K2 & K3). exists e1, x.
        rewrite (sem_src K2), (sem_hand K2), A0. auto.
      + intros x Hx. rewrite A0 in Hx. rewrite N0. apply (b_own B x Hx).
      + intros x k h j Hx Hh Hk. rewrite A0 in Hx. destruct (b_edge B x k Hx Hh Hk) as (ej & E1 & (O1 & O2 & O3 & O4 & O5) & E3).
        assert (Hr : exists e1, ed s' j = Some e1 /\ sem e1 = sem ej).
        { destruct (Nat.eq_dec j i) as [->|Hn]; [|exists ej; rewrite (En j Hn); auto]. rewrite E in E1. injection E1 as <-. exists e'. auto. }
        destruct Hr as (e1 & K1 & K2). exists e1. split; [exact K1|]. split.
        * unfold edge_ok. rewrite (sem_src K2), (sem_neg K2), (sem_hand K2), (sem_tgts K2). repeat split; auto. intros y Hy. rewrite A0. auto.
        * unfold waiting. rewrite (sem_proc K2), (sem_neg K2), (sem_tgts K2). destruct E3 as [E3|[E3|[E3|(P1 & P2)]]]; [left; exact E3|right; left; exact E3|right; right; left; exact E3|].
          right. right. right. split; [exact P1|]. destruct (e_neg ej).
          -- split; [apply P2|]. intros y Hy. rewrite A0. apply P2. exact Hy.
          -- destruct P2 as ((y & Hy & Hz) & P3). split; [exists y; rewrite A0; auto|]. intros z Hz'. unfold undone. rewrite A0. apply P3. exact Hz'.
      + intros x k h Hx Hh Hk. rewrite A0 in Hx. assert (K := b_block B x k Hx Hh Hk). unfold blocked in *. destruct (h_neg h).
        * intros y Hy. rewrite A0. auto.
        * destruct K as (y & K1 & K2). exists y. rewrite A0. auto.
      + intros x k k' j Hx. rewrite A0 in Hx. apply (b_inj B x k k' Hx).
      + intros x Hx. rewrite A0 in Hx. apply (b_one B x Hx).
      + intros x Hx. rewrite A0 in Hx. apply (b_czero B x Hx).
      + intros x. destruct (ceq x t) as [->|Hn]; [rewrite I1; lia|]. rewrite (I0 x Hn). apply B.
      + intros x Hx. rewrite A0 in Hx. destruct (ceq x t) as [->|Hn]; [exact I1|]. rewrite (I0 x Hn). apply (b_dist1 B x Hx).
      + intros x Hx. destruct (ceq x t) as [->|Hn]; [exact I1|]. rewrite (I0 x Hn). apply (b_dist2 B). rewrite D0 in Hx. destruct (ceq x t); congruence.
      + intros j ej y Hj Ej Hn x Hx. destruct (Hi' ej j Ej) as (e0 & K1 & K2). rewrite (sem_neg K2) in Hn. rewrite (sem_tgts K2) in Hx.
        apply Dj in Hj. destruct Hj as [Hj|(-> & ->)]; [eapply (b_deps B); eauto|]. rewrite E in K1. injection K1 as <-. apply Hneg; auto.
      + intros x k j ej y Hx Hk Ej Hn Hp Hy Huy. rewrite A0 in Hx. unfold undone in Huy. rewrite A0 in Huy. destruct (Hi' ej j Ej) as (e0 & K1 & K2).
        rewrite (sem_neg K2) in Hn. rewrite (sem_tgts K2) in Hy. rewrite (sem_proc K2) in Hp. apply Di.
        eapply (b_pdeps B); [exact Hx|exact Hk|exact K1|exact Hn|exact Hp|exact Hy|exact Huy].
      + intros j ej Hj Ej. destruct (Hi' ej j Ej) as (e0 & K1 & K2). assert (K := b_W B j Hj K1). intros x. rewrite (sem_neg K2), (sem_proc K2), (sem_hand K2), (sem_src K2), (sem_tgts K2), A0.
        intros G1 G2 G3 G4 G5 y Hy. rewrite A0. eapply K; eauto.
      + intros j ej Hj Ej. destruct (Hi' ej j Ej) as (e0 & K1 & K2). assert (K := b_D B j Hj K1). intros x. rewrite (sem_neg K2), (sem_hand K2), (sem_src K2), (sem_tgts K2), A0.
        intros G1 G2 G3 G4. rewrite (@decided_same conf s s' _ A0). eapply K; eauto.
      + intros j ej Ej Hr Hp Hj. destruct (Nat.eq_dec j i) as [->|Hn]; [contradiction|]. rewrite (En j Hn) in Ej. destruct (b_un B j Ej Hr Hp Hj) as (U1 & U2 & U3 & U4).
        split; [exact U1|]. split; [exact U2|]. split; [|exact U4]. intros x K. apply Dj in K. destruct K as [K|(K & _)]; [apply (U3 x K)|congruence].
    - split; [exact A0|]. split; [exact N0|]. split; [reflexivity|]. split; [reflexivity|]. split; [reflexivity|]. split; [exact Di|]. split; [|split; [exists e'; auto|exact I1]].
      rewrite D0. destruct (ceq t t); [exact S1|congruence].
  Qed.
End Assign.
