(** Exploration of a configuration: creation of the edges, and the whole step. *)
From Verif Require Import Base BaseLemmas DgSpec DgModel DgInv DgOps DgSteps DgAssign DgExplore DgFresh.
Set Implicit Arguments.

Section New.
  Variable conf : Type.
  Variable ceq : forall a b : conf, {a = b} + {a <> b}.
  Variable g : graph conf.
  Variable val : conf -> Prop.
  Variable depth : conf -> nat.
  Variable addr : nat -> nat.
  Variable init : conf.
  Hypothesis Hsol : solution g val.
  Hypothesis Hlev : leveled g init depth.
  Notation st := (st conf).
  Notation edge := (edge conf).
  Notation Sem := (Sem g val depth).
  Notation Inv := (Inv g val depth).
  Notation okW := (okW val).
  Notation settles := (settles val).

  Definition brand_new (c : conf) (h : hedge conf) : edge := mkEdge (Some c) (h_targets h) (h_neg h) 0 false false 1.

  Lemma new_edge_ok : forall L H (s : st) c h, Refs L H s ->
    exists s' i, new_edge s c h = Ok (s', i) /\ Refs L (i :: H) s' /\ (forall x, s_cfg s' x = s_cfg s x) /\ s_W s' = s_W s /\ s_N s' = s_N s /\ s_D s' = s_D s /\
      tot L H s i = 0 /\ ed s' i = Some (brand_new c h) /\ (forall j, j <> i -> ed s' j = ed s j) /\ ~ In i (s_rec s') /\ incl (s_rec s') (s_rec s).
  Proof.
    intros L H s c h R. unfold new_edge. destruct (s_rec s) as [|i r] eqn:Er.
    - set (i := length (s_edges s)). eexists _, i. split; [reflexivity|].
      set (s' := mkSt (s_cfg s) (s_edges s ++ [mkEdge (Some c) (h_targets h) (h_neg h) 0 false false 1]) [] (s_W s) (s_N s) (s_D s)).
      assert (T : tot L H s i = 0).
      { destruct (tot L H s i) eqn:T; [reflexivity|]. destruct (r_occ R i) as (e & E & _); [lia|]. apply nth_lt in E. unfold i in E. lia. }
      assert (Ei : ed s' i = Some (brand_new c h)) by (unfold ed; cbn; rewrite nth_error_app2 by (unfold i; lia); unfold i; rewrite Nat.sub_diag; reflexivity).
      assert (En : forall j, j <> i -> ed s' j = ed s j).
      { intros j Hj. unfold ed. cbn. destruct (Nat.lt_ge_cases j i) as [K|K]; [apply nth_error_app1; exact K|]. rewrite nth_error_app2 by exact K.
        unfold i in *. rewrite (proj2 (nth_error_None (s_edges s) j) K). destruct (j - length (s_edges s)) as [|d] eqn:Ed; [lia|]. cbn. destruct d; reflexivity. }
      split; [|repeat split; auto; cbn; auto using incl_refl].
      assert (Tt : forall j, tot L (i :: H) s' j = (if Nat.eq_dec i j then 1 else 0) + tot L H s j).
      { intros j. unfold tot. change (depsum L s' j) with (depsum L s j). cbn [s' s_W s_N s_D]. rewrite occ_cons. lia. }
      split; try (solve [apply R]).
      + intros j Hj. rewrite Tt in *. destruct (Nat.eq_dec i j) as [<-|Hn].
        * exists (brand_new c h). split; [exact Ei|]. rewrite T. reflexivity.
        * rewrite En by congruence. destruct (r_occ R j Hj) as (e & K1 & K2). exists e. auto.
      + intros j [].
      + constructor.
      + intros j e Ej Hs. destruct (Nat.eq_dec j i) as [->|Hn]; [rewrite Ei in Ej; injection Ej as <-; cbn in Hs; lia|]. rewrite (En j Hn) in Ej. apply (r_status R j Ej Hs).
    - assert (Hi : In i (s_rec s)) by (rewrite Er; left; reflexivity). destruct (r_rec R i Hi) as (e & E & F1 & F2 & F3 & F4).
      assert (Hlt := nth_lt _ _ E). rewrite (rd_ok _ _ E). cbn [bind]. unfold wr. replace (i <? length (s_edges s)) with true by (symmetry; apply Nat.ltb_lt; exact Hlt). cbn [bind].
      eexists _, i. split; [reflexivity|]. rewrite F2, F3, F4.
      set (s' := mkSt (s_cfg s) (upd (s_edges s) i (mkEdge (Some c) (h_targets h) (h_neg h) 0 false false 1)) r (s_W s) (s_N s) (s_D s)).
      assert (T : tot L H s i = 0).
      { destruct (tot L H s i) eqn:T; [reflexivity|]. destruct (r_occ R i) as (e2 & E2 & E3); [lia|]. rewrite E in E2. injection E2 as <-. lia. }
      assert (Ei : ed s' i = Some (brand_new c h)) by (eapply nth_upd_some; exact E).
      assert (En : forall j, j <> i -> ed s' j = ed s j) by (intros j Hj; apply nth_upd_ne; congruence).
      assert (Nd := r_nodup R). rewrite Er in Nd. inversion Nd as [|? ? Nd1 Nd2]; subst.
      split; [|repeat split; auto; cbn; auto using incl_tl, incl_refl].
      assert (Tt : forall j, tot L (i :: H) s' j = (if Nat.eq_dec i j then 1 else 0) + tot L H s j).
      { intros j. unfold tot. change (depsum L s' j) with (depsum L s j). cbn [s' s_W s_N s_D]. rewrite occ_cons. lia. }
      split; try (solve [apply R]).
      + intros j Hj. rewrite Tt in *. destruct (Nat.eq_dec i j) as [<-|Hn].
        * exists (brand_new c h). split; [exact Ei|]. rewrite T. reflexivity.
        * rewrite En by congruence. destruct (r_occ R j Hj) as (e2 & K1 & K2). exists e2. auto.
      + intros j Hj. cbn in Hj. rewrite En by (intros ->; contradiction). apply (r_rec R). rewrite Er. right. exact Hj.
      + exact Nd2.
      + intros j e2 Ej Hs. destruct (Nat.eq_dec j i) as [->|Hn]; [rewrite Ei in Ej; injection Ej as <-; cbn in Hs; lia|]. rewrite (En j Hn) in Ej. apply (r_status R j Ej Hs).
  Qed.

  Lemma new_edges_ok : forall hs L H (s : st) c, Refs L H s ->
    exists s' ids, new_edges s c hs = Ok (s', ids) /\ Refs L (ids ++ H) s' /\ (forall x, s_cfg s' x = s_cfg s x) /\ s_W s' = s_W s /\ s_N s' = s_N s /\ s_D s' = s_D s /\
      length ids = length hs /\ NoDup ids /\ (forall i, In i ids -> tot L H s i = 0) /\
      (forall k h i, nth_error hs k = Some h -> nth_error ids k = Some i -> ed s' i = Some (brand_new c h)) /\ (forall j, ~ In j ids -> ed s' j = ed s j).
  Proof.
    induction hs as [|h hs IH]; intros L H s c R.
    - exists s, []. split; [reflexivity|]. split; [exact R|]. do 4 (split; [reflexivity|]). split; [reflexivity|]. split; [constructor|]. split; [intros i []|]. split; [intros [|k] h i K; discriminate|auto].
    - destruct (@new_edge_ok L H s c h R) as (s1 & i & F1 & F2 & F3 & F4 & F5 & F6 & F7 & F8 & F9 & F10 & F11).
      destruct (IH L (i :: H) s1 c F2) as (s2 & ids & G1 & G2 & G3 & G4 & G5 & G6 & G7 & G8 & G9 & G10 & G11).
      assert (Ti : tot L (i :: H) s1 i = 1).
      { assert (K : tot L (i :: H) s1 i = S (tot L H s i)); [|lia]. unfold tot. rewrite F4, F5, F6, occ_cons. destruct (Nat.eq_dec i i); [|congruence].
        rewrite (depsum_same L s s1 i) by (intros x _; unfold deps; rewrite F3; reflexivity). lia. }
      assert (Hi : ~ In i ids) by (intros K; apply G9 in K; lia).
      exists s2, (i :: ids). split.
      { cbn [new_edges]. rewrite F1. cbn [bind fst snd]. rewrite G1. reflexivity. }
      split.
      { eapply Refs_same; [exact G2|apply G2|apply G2|reflexivity| |reflexivity|auto]. intros j. unfold tot. cbn [app]. rewrite occ_cons, !occ_app, occ_cons. lia. }
      split; [intros x; rewrite G3; apply F3|]. split; [congruence|]. split; [congruence|]. split; [congruence|]. split; [cbn; congruence|]. split; [constructor; assumption|].
      split.
      { intros j [<-|Hj]; [exact F7|]. assert (K := G9 j Hj). unfold tot in *. rewrite F4, F5, F6 in K. rewrite occ_cons in K.
        rewrite (depsum_same L s s1 j) in K by (intros x _; unfold deps; rewrite F3; reflexivity). lia. }
      split.
      { intros [|k] h' i' Hh Hk; cbn in *; [|apply (G10 k h' i' Hh Hk)]. injection Hh as <-. injection Hk as <-. rewrite (G11 i Hi). exact F8. }
      intros j Hj. rewrite G11 by (intros K; apply Hj; right; exact K). apply F9. intros ->. apply Hj. left. reflexivity.
  Qed.

  Lemma nth_map_some : forall (ids : list nat) k i, nth_error (map (@Some nat) ids) k = Some (Some i) <-> nth_error ids k = Some i.
  Proof. induction ids as [|x ids IH]; intros [|k] i; cbn; try (split; congruence). apply IH. Qed.
  Lemma nth_map_none : forall (ids : list nat) k, nth_error (map (@Some nat) ids) k <> Some None.
  Proof. induction ids as [|x ids IH]; intros [|k]; cbn; try congruence. Qed.

  (** the state in which the new edges are tried *)
  Lemma begin_ok : forall own H X s c, Inv own H X s -> asg_of s c = Unknown -> dist s c = depth c ->
    exists s1 ids, new_edges s c (g c) = Ok (s1, ids) /\ NoDup ids /\ (forall i, In i ids -> ~ mem H s i) /\
      let s2 := set_cfg ceq s1 c (mkCfg Zero (length (g c)) (c_dist (s_cfg s c)) (c_deps (s_cfg s c))) in
      Inv (fun x => if ceq x c then map (@Some nat) ids else own x) (ids ++ H) (ids ++ X) s2 /\ trying c ids ids H s2 /\ ex c H s s2.
  Proof.
    intros own H X s c ((L & R) & B) Hc Hdist. destruct (@new_edges_ok (g c) L H s c R) as (s1 & ids & F1 & F2 & F3 & F4 & F5 & F6 & F7 & F8 & F9 & F10 & F11).
    exists s1, ids. split; [exact F1|]. split; [exact F8|].
    assert (Nm : forall i, In i ids -> ~ mem H s i) by (intros i Hi; rewrite (mem_tot ceq i R), (F9 i Hi); lia). split; [exact Nm|].
    set (s2 := set_cfg ceq s1 c (mkCfg Zero (length (g c)) (c_dist (s_cfg s c)) (c_deps (s_cfg s c)))). cbn zeta.
    assert (A0 : forall x, asg_of s2 x = if ceq x c then Zero else asg_of s x) by (intros x; unfold s2; rewrite asg_set; destruct (ceq x c); [reflexivity|unfold asg_of; rewrite F3; reflexivity]).
    assert (D0 : forall x, deps s2 x = deps s x) by (intros x; unfold s2; rewrite deps_set; destruct (ceq x c) as [->|]; [reflexivity|unfold deps; rewrite F3; reflexivity]).
    assert (I0 : forall x, dist s2 x = dist s x) by (intros x; unfold s2; rewrite dist_set; destruct (ceq x c) as [->|]; [reflexivity|unfold dist; rewrite F3; reflexivity]).
    assert (A1 : forall x, x <> c -> asg_of s2 x = asg_of s x) by (intros x Hx; rewrite A0; destruct (ceq x c); congruence).
    assert (Ac : asg_of s2 c = Zero) by (rewrite A0; destruct (ceq c c); congruence).
    assert (AO : forall x a, asg_of s x = a -> a <> Unknown -> asg_of s2 x = a).
    { intros x a Hx Ha. rewrite A0. destruct (ceq x c) as [->|]; congruence. }
    assert (AN : forall x, asg_of s x <> Unknown -> asg_of s2 x <> Unknown) by (intros x Hx; rewrite A0; destruct (ceq x c); [discriminate|exact Hx]).
    assert (AU : forall x, undone s2 x <-> undone s x) by (intros x; unfold undone; rewrite A0; destruct (ceq x c) as [->|]; [rewrite Hc|]; tauto).
    assert (Ei : forall j, ed s2 j = ed s1 j) by reflexivity.
    assert (Mi : forall j, mem (ids ++ H) s2 j -> In j ids \/ (~ In j ids /\ mem H s j)).
    { intros j Mj. destruct (in_dec Nat.eq_dec j ids) as [K|K]; [auto|]. right. split; [exact K|]. destruct Mj as [G|[G|[G|[G|(x & G)]]]].
      - left. cbn in G. congruence.
      - right. left. cbn in G. congruence.
      - right. right. left. cbn in G. congruence.
      - right. right. right. left. apply in_app_or in G. tauto.
      - right. right. right. right. exists x. rewrite D0 in G. exact G. }
    assert (Li : forall j, lists s j -> ~ In j ids) by (intros j Hl Hj; apply (Nm j Hj); destruct Hl as [K|[K|K]]; unfold mem; auto).
    assert (Ids : forall i, In i ids -> exists h, ed s2 i = Some (brand_new c h)).
    { intros i Hi. apply In_nth_error in Hi. destruct Hi as (k & Hk). destruct (nth_error (g c) k) as [h|] eqn:Eh.
      - exists h. rewrite Ei. eapply F10; eauto.
      - apply nth_error_None in Eh. apply nth_lt in Hk. lia. }
    (* edges that were referenced do not start in c *)
    assert (Src : forall j e, mem H s j -> ed s j = Some e -> e_src e <> Some c).
    { intros j e Mj Ej Hs. destruct (b_live B Mj) as (e1 & x & E1 & E2 & _ & E4 & _). congruence. }
    split; [split|split].
    - exists L. apply Refs_same with (L := L) (H := ids ++ H) (s := s1); auto; try (solve [apply F2]).
      + intros x Hx. rewrite D0. apply (r_Ld R x Hx).
      + intros j. unfold tot. rewrite (depsum_same L s1 s2 j); [reflexivity|]. intros x _. rewrite D0. unfold deps. rewrite F3. reflexivity.
    - split.
      + intros j Mj. destruct (Mi j Mj) as [Hj|(Hj & Mj')].
        * destruct (Ids j Hj) as (h & Eh). exists (brand_new c h), c. split; [exact Eh|]. split; [reflexivity|]. split; [cbn; lia|]. split; [rewrite Ac; discriminate|].
          right. right. apply In_nth_error in Hj. destruct Hj as (k & Hk). exists k. destruct (ceq c c); [|congruence]. apply nth_map_some. exact Hk.
        * destruct (b_live B Mj') as (e & x & E1 & E2 & E3 & E4 & E5). exists e, x. rewrite Ei, (F11 j Hj). split; [exact E1|]. split; [exact E2|]. split; [exact E3|]. split; [apply AN; exact E4|].
          assert (Hx : x <> c) by congruence. rewrite (A1 x Hx). destruct (ceq x c); [congruence|exact E5].
      + intros x Hx. unfold s2. rewrite nsuccs_set. destruct (ceq x c) as [->|Hn].
        * rewrite map_length, somes_map. cbn. split; congruence.
        * rewrite (A1 x Hn) in Hx. unfold nsuccs. rewrite F3. apply (b_own B x Hx).
      + intros x k h i Hx Hh Hk. destruct (ceq x c) as [->|Hn].
        * apply nth_map_some in Hk. exists (brand_new c h). split; [rewrite Ei; eapply F10; eauto|]. split; [|left; apply in_or_app; left; eapply nth_error_In; exact Hk].
          unfold edge_ok. cbn. repeat split; auto using incl_refl.
        * rewrite (A1 x Hn) in Hx. destruct (b_edge B x k Hx Hh Hk) as (e & E1 & (O1 & O2 & O3 & O4 & O5) & E3).
          assert (Hi : ~ In i ids).
          { intros K. destruct (Ids i K) as (h' & Eh). apply (Nm i K). destruct E3 as [E3|[E3|[E3|(P1 & P2)]]].
            - right. right. right. left. apply (b_X B). exact E3.
            - left. exact E3.
            - right. right. left. exact E3.
            - destruct (e_neg e) eqn:En.
              + right. left. apply P2.
              + destruct P2 as ((t & Ht & Hz) & _). right. right. right. right. exists t. eapply (b_pdeps B); [exact Hx|exact Hk|exact E1|exact En|exact P1|exact Ht|]. unfold undone. rewrite Hz. reflexivity. }
          exists e. rewrite Ei, (F11 i Hi). split; [exact E1|]. split.
          -- unfold edge_ok. repeat split; auto. intros t Ht. destruct (O5 t Ht) as [K|K]; [auto|right; apply AO; [exact K|discriminate]].
          -- destruct E3 as [E3|[E3|[E3|(P1 & P2)]]]; [left; apply in_or_app; auto|right; left; cbn; congruence|right; right; left; cbn; congruence|].
             right. right. right. split; [exact P1|]. destruct (e_neg e).
             ++ destruct P2 as (P2 & P3). split; [cbn; congruence|]. intros t Ht. apply AN. auto.
             ++ destruct P2 as ((t & Ht & Hz) & P3). split; [exists t; split; [exact Ht|apply AO; [exact Hz|discriminate]]|]. intros y Hy. apply AU. auto.
      + intros x k h Hx Hh Hk. destruct (ceq x c) as [->|Hn]; [exfalso; apply (nth_map_none _ _ Hk)|]. rewrite (A1 x Hn) in Hx. assert (G := b_block B x k Hx Hh Hk).
        unfold blocked in *. destruct (h_neg h); [intros t Ht; apply AO; [auto|discriminate]|]. destruct G as (t & G1 & G2). exists t. split; [exact G1|]. apply AO; [exact G2|discriminate].
      + intros x k k' i Hx Hk Hk'. destruct (ceq x c) as [->|Hn]; [|rewrite (A1 x Hn) in Hx; apply (b_inj B x k k' Hx Hk Hk')].
        apply nth_map_some in Hk. apply nth_map_some in Hk'. apply (NoDup_nth_error ids) ; [exact F8|eapply nth_lt; exact Hk|congruence].
      + apply incl_app; [apply incl_appl, incl_refl|]. apply incl_appr. apply B.
      + intros x Hx. apply (b_one B). rewrite A0 in Hx. destruct (ceq x c); [discriminate|exact Hx].
      + intros x Hx. apply (b_czero B). rewrite A0 in Hx. destruct (ceq x c); [discriminate|exact Hx].
      + intros x. rewrite I0. apply B.
      + intros x Hx. rewrite I0. destruct (ceq x c) as [->|Hn]; [exact Hdist|]. rewrite (A1 x Hn) in Hx. apply (b_dist1 B x Hx).
      + intros x Hx. rewrite I0. rewrite D0 in Hx. apply (b_dist2 B x Hx).
      + intros i e t Hi E Hn x Hx. rewrite D0 in Hi. assert (Mi' : mem H s i) by (right; right; right; right; exists t; exact Hi).
        rewrite Ei, F11 in E by (intros K; apply (Nm i K Mi')). apply (b_deps B i t Hi E Hn x Hx).
      + intros x k i e t Hx Hk E Hn Hp Ht Hu. rewrite D0. apply AU in Hu. destruct (ceq x c) as [->|Hxc].
        * apply nth_map_some in Hk. assert (K : In i ids) by (eapply nth_error_In; exact Hk). destruct (Ids i K) as (h & Eh). rewrite E in Eh. injection Eh as ->. discriminate.
        * rewrite (A1 x Hxc) in Hx. destruct (in_dec Nat.eq_dec i ids) as [K|K].
          -- destruct (Ids i K) as (h & Eh). rewrite E in Eh. injection Eh as ->. discriminate.
          -- rewrite Ei, (F11 i K) in E. eapply (b_pdeps B); [exact Hx|exact Hk|exact E|exact Hn|exact Hp|exact Ht|exact Hu].
      + intros j e Hj Ej. change (s_W s2) with (s_W s1) in Hj. rewrite F4 in Hj. rewrite Ei, F11 in Ej by (apply Li; left; exact Hj). assert (K := b_W B j Hj Ej).
        intros x G1 G2 G3 G4 G5 t Ht. assert (Hx : x <> c) by (intros ->; apply (@Src j e); [left; exact Hj|exact Ej|exact G4]). rewrite (A1 x Hx) in G5.
        destruct (K x G1 G2 G3 G4 G5 t Ht) as (K1 & K2). split; [apply AN; exact K1|]. destruct K2 as [K2|K2]; [left; apply AO; [exact K2|discriminate]|right; exact K2].
      + intros j e Hj Ej. change (s_D s2) with (s_D s1) in Hj. rewrite F6 in Hj. rewrite Ei, F11 in Ej by (apply Li; right; right; exact Hj). assert (K := b_D B j Hj Ej).
        intros x G1 G3 G4 G5. assert (Hx : x <> c) by (intros ->; apply (@Src j e); [right; right; left; exact Hj|exact Ej|exact G4]). rewrite (A1 x Hx) in G5.
        assert (K1 := K x G1 G3 G4 G5). rewrite decided_spec in *. destruct K1 as [K1|(t & K1 & K2)]; [left; intros t Ht; apply AO; [auto|discriminate]|right; exists t; split; [exact K1|apply AO; [exact K2|discriminate]]].
      + intros j e Ej Hr Hp Hj. assert (Hj1 : ~ In j ids) by (intros K; apply Hj; apply in_or_app; auto). assert (Hj2 : ~ In j X) by (intros K; apply Hj; apply in_or_app; auto).
        rewrite Ei, (F11 j Hj1) in Ej. destruct (b_un B j Ej Hr Hp Hj2) as (U1 & U2 & U3 & U4). change (s_N s2) with (s_N s1). change (s_D s2) with (s_D s1). change (s_W s2) with (s_W s1).
        rewrite F4, F5, F6. split; [exact U1|]. split; [exact U2|]. split; [|exact U4]. intros x. rewrite D0. apply U3.
    - split; auto.
      + intros i Hi K. apply (Nm i Hi). right. right. right. left. exact K.
      + intros i Hi. destruct (Ids i Hi) as (h & Eh). exists (brand_new c h). split; [exact Eh|]. cbn. auto.
    - split.
      + intros x Hx. unfold s2, set_cfg. cbn. destruct (ceq x c); [congruence|apply F3].
      + intros q _ Hq. cbn in Hq. congruence.
      + exact F5.
      + cbn. rewrite F6. apply incl_refl.
      + intros q e Hq E. exists e. rewrite Ei, F11; [auto|]. intros K. apply (Nm q K). right. right. right. left. exact Hq.
      + left. split; [exact Ac|apply D0].
  Qed.

  Lemma trying_ref : forall own c ids R H X s i, Inv own (R ++ H) X s -> trying c ids R H s -> In i ids ->
    (In i R /\ exists e, ed s i = Some e /\ e_ref e = 1%Z) \/ (~ In i R /\ exists e, ed s i = Some e /\ e_ref e = (-1)%Z).
  Proof.
    intros own c ids R H X s i ((L & Rf) & B) T Hi. destruct (in_dec Nat.eq_dec i R) as [K|K].
    - left. split; [exact K|]. destruct (t_fresh T i K) as (e & E & _ & Hr & _). eauto.
    - right. split; [exact K|]. destruct (t_cover T i Hi) as [K'|K']; [contradiction|]. destruct (r_rec Rf i K') as (e & E & Hr & _). eauto.
  Qed.

  Lemma drop_all_ok : forall l own c R H X s, Inv own (R ++ H) X s -> trying c l R H s -> incl X H -> (forall i, In i R -> In i l) -> NoDup l ->
    exists s', drop_all s l = Ok s' /\ Inv own H X s' /\ (forall x, s_cfg s' x = s_cfg s x) /\ s_W s' = s_W s /\ s_N s' = s_N s /\ s_D s' = s_D s /\
      (forall q e, In q H -> ed s q = Some e -> exists e', ed s' q = Some e' /\ sem e' = sem e).
  Proof.
    induction l as [|i l IH]; intros own c R H X s I T HX Hl Hnd.
    - exists s. assert (R = []) by (destruct R as [|j R]; [reflexivity|destruct (Hl j (or_introl eq_refl))]). subst R. split; [reflexivity|]. split; [exact I|].
      do 4 (split; [reflexivity|]). intros q e _ E. exists e. auto.
    - inversion Hnd as [|? ? Hil Hnd']; subst. cbn [drop_all]. destruct (@trying_ref own c (i :: l) R H X s i I T (or_introl eq_refl)) as [(Hi & e & E & Hr)|(Hi & e & E & Hr)];
        rewrite (rd_ok _ _ E); cbn [bind]; rewrite Hr; cbn [Z.leb Z.eqb Z.compare Pos.compare Pos.compare_cont].
      + destruct (@drop_ok conf ceq g val depth own (R ++ H) (remove Nat.eq_dec i R ++ H) X s i I) as (s1 & F1 & F2 & F3 & F4 & F5 & F6 & F7 & F8 & F9 & F10).
        { intros j. apply remove_occ; [apply T|exact Hi]. } { apply incl_appr. exact HX. }
        rewrite F1. cbn [bind].
        destruct (IH own c (remove Nat.eq_dec i R) H X s1 F2) as (s2 & G1 & G2 & G3 & G4 & G5 & G6 & G7).
        * destruct T as [T1 T2 T3 T4]. split.
          -- apply nodup_remove. exact T1.
          -- intros j Hj. apply in_remove_iff in Hj. apply T2. apply Hj.
          -- intros j Hj. apply in_remove_iff in Hj. destruct (T3 j (proj1 Hj)) as (ej & K). exists ej. rewrite (F8 j (proj2 Hj)). exact K.
          -- intros j Hj. destruct (T4 j (or_intror Hj)) as [K|K]; [left; apply in_remove_iff; split; [exact K|intros ->; contradiction]|right; auto].
        * exact HX.
        * intros j Hj. apply in_remove_iff in Hj. destruct (Hl j (proj1 Hj)) as [K|K]; [exfalso; apply (proj2 Hj); auto|exact K].
        * exact Hnd'.
        * exists s2. split; [exact G1|]. split; [exact G2|]. split; [intros x; rewrite G3; apply F3|]. split; [congruence|]. split; [congruence|]. split; [congruence|].
          intros q eq Hq Eq. apply (G7 q eq Hq). rewrite F8; [exact Eq|]. intros ->. apply (t_disj T i Hi Hq).
      + destruct (IH own c R H X s I) as (s2 & G); [|exact HX| |exact Hnd'|exists s2; exact G].
        * destruct T as [T1 T2 T3 T4]. split; auto. intros j Hj. apply T4. right. exact Hj.
        * intros j Hj. destruct (Hl j Hj) as [K|K]; [subst; contradiction|exact K].
  Qed.

  Lemma push_all_ok : forall l own c R H X s, Inv own (R ++ H) (R ++ X) s -> trying c l R H s -> incl X H -> asg_of s c = Zero -> (forall i, In i R -> In i l) -> NoDup l ->
    exists s', push_all s l = Ok s' /\ Inv own H X s' /\ (forall x, s_cfg s' x = s_cfg s x) /\ (forall q, In q H -> In q (s_W s') -> In q (s_W s)) /\ s_N s' = s_N s /\ s_D s' = s_D s /\
      (forall q e, In q H -> ed s q = Some e -> exists e', ed s' q = Some e' /\ sem e' = sem e).
  Proof.
    induction l as [|i l IH]; intros own c R H X s I T HX Hc Hl Hnd.
    - exists s. assert (R = []) by (destruct R as [|j R]; [reflexivity|destruct (Hl j (or_introl eq_refl))]). subst R. split; [reflexivity|]. split; [exact I|].
      split; [reflexivity|]. split; [auto|]. split; [reflexivity|]. split; [reflexivity|]. intros q e _ E. exists e. auto.
    - inversion Hnd as [|? ? Hil Hnd']; subst. cbn [push_all]. destruct (@trying_ref own c (i :: l) R H (R ++ X) s i I T (or_introl eq_refl)) as [(Hi & e & E & Hr)|(Hi & e & E & Hr)];
        rewrite (rd_ok _ _ E); cbn [bind]; rewrite Hr; cbn [Z.ltb Z.eqb Z.compare Pos.compare Pos.compare_cont].
      + destruct (t_fresh T i Hi) as (e0 & E0 & Es & _ & Hp & Hhd). rewrite E in E0. injection E0 as <-.
        assert (HiH : In i (R ++ H)) by (apply in_or_app; auto). assert (HiX : In i (R ++ X)) by (apply in_or_app; auto).
        assert (M : mem (R ++ H) s i) by (right; right; right; left; exact HiH).
        destruct (get_ok ceq I M) as (e0 & c0 & G & E0 & Es0 & _). rewrite E in E0. injection E0 as <-. rewrite Es in Es0. injection Es0 as <-.
        destruct (only_held ceq i I HiH E Hr) as (NL & ND & _ & Hst).
        assert (OW : okW s e) by (intros x _ K; congruence).
        assert (I1 := @push_W_ok conf ceq g val depth addr own (R ++ H) (R ++ X) s i e 1 I HiH E (or_intror HiX) OW).
        set (s1 := set_lists (set_edge s i (set_push e 1)) (s_W s ++ [i]) (s_N s) (s_D s)) in *.
        assert (E1 : ed s1 i = Some (set_push e 1)) by (exact (@ed_set conf s i e (set_push e 1) E)).
        assert (En1 : forall j, j <> i -> ed s1 j = ed s j) by (intros j Hj; exact (@ed_set_ne conf s i j (set_push e 1) Hj)).
        assert (P1 : push_edge s i = Ok s1).
        { unfold push_edge. rewrite G. cbn [bind fst snd]. rewrite Hst, Hc, Hp. reflexivity. }
        rewrite P1. cbn [bind].
        assert (X1 : incl (remove Nat.eq_dec i R ++ X) (R ++ X)).
        { intros j Hj. apply in_app_or in Hj. apply in_or_app. destruct Hj as [Hj|Hj]; [left; apply in_remove_iff in Hj; apply Hj|auto]. }
        assert (I2 : Inv own (R ++ H) (remove Nat.eq_dec i R ++ X) s1).
        { eapply (@Inv_X conf g val depth own _ (R ++ X) (remove Nat.eq_dec i R ++ X) s1 I1 X1). intros j ej Hj Hj' Ej. assert (j = i).
          { apply in_app_or in Hj. destruct Hj as [Hj|Hj]; [|exfalso; apply Hj'; apply in_or_app; auto]. destruct (Nat.eq_dec j i); [assumption|]. exfalso. apply Hj'. apply in_or_app. left. apply in_remove_iff. auto. }
          subst j. rewrite E1 in Ej. injection Ej as <-. split; [intros x _ _ _; left; cbn; apply in_or_app; right; left; reflexivity|]. right. cbn [s1 set_lists set_edge s_W s_N s_D].
          split; [intros K; apply NL; right; left; exact K|]. split; [intros K; apply NL; right; right; exact K|]. split; [exact ND|].
          assert (K : occ (s_W s) i = 0) by (apply occ_nin; intros K; apply NL; left; exact K). rewrite occ_snoc. destruct (Nat.eq_dec i i); lia. }
        destruct (@drop_ok conf ceq g val depth own (R ++ H) (remove Nat.eq_dec i R ++ H) (remove Nat.eq_dec i R ++ X) s1 i I2) as (s2 & F1 & F2 & F3 & F4 & F5 & F6 & F7 & F8 & F9 & F10).
        { intros j. apply remove_occ; [apply T|exact Hi]. } { apply incl_app; [apply incl_appl, incl_refl|apply incl_appr; exact HX]. }
        rewrite F1. cbn [bind].
        destruct (IH own c (remove Nat.eq_dec i R) H X s2 F2) as (s3 & G1 & G2 & G3 & G4 & G5 & G6 & G7).
        * destruct T as [T1 T2 T3 T4]. split.
          -- apply nodup_remove. exact T1.
          -- intros j Hj. apply in_remove_iff in Hj. apply T2. apply Hj.
          -- intros j Hj. apply in_remove_iff in Hj. destruct (T3 j (proj1 Hj)) as (ej & K). exists ej. rewrite (F8 j (proj2 Hj)), (En1 j (proj2 Hj)). exact K.
          -- intros j Hj. destruct (T4 j (or_intror Hj)) as [K|K]; [left; apply in_remove_iff; split; [exact K|intros ->; contradiction]|right; apply F7; exact K].
        * exact HX.
        * unfold asg_of. rewrite F3. exact Hc.
        * intros j Hj. apply in_remove_iff in Hj. destruct (Hl j (proj1 Hj)) as [K|K]; [exfalso; apply (proj2 Hj); auto|exact K].
        * exact Hnd'.
        * exists s3. split; [exact G1|]. split; [exact G2|]. split; [intros x; rewrite G3; apply F3|]. split.
          { intros q Hq K. apply (G4 q Hq) in K. rewrite F4 in K. cbn in K. apply in_app_or in K. destruct K as [K|[K|[]]]; [exact K|]. subst q. exfalso. apply (t_disj T i Hi Hq). }
          split; [rewrite G5; apply F5|]. split; [rewrite G6; apply F6|].
          intros q eq Hq Eq. apply (G7 q eq Hq). rewrite F8, En1; [exact Eq| |]; intros ->; apply (t_disj T i Hi Hq).
      + destruct (IH own c R H X s I) as (s2 & G); [|exact HX|exact Hc| |exact Hnd'|exists s2; exact G].
        * destruct T as [T1 T2 T3 T4]. split; auto. intros j Hj. apply T4. right. exact Hj.
        * intros j Hj. destruct (Hl j Hj) as [K|K]; [subst; contradiction|exact K].
  Qed.

  Lemma trying_X : forall own c ids R H X s, Inv own (R ++ H) (R ++ X) s -> trying c ids R H s -> asg_of s c <> Zero -> Inv own (R ++ H) X s.
  Proof.
    intros own c ids R H X s I T Hd. eapply (@Inv_X conf g val depth own _ (R ++ X) X s I); [apply incl_appr, incl_refl|].
    intros j ej Hj Hj' Ej. apply in_app_or in Hj. destruct Hj as [Hj|Hj]; [|contradiction]. destruct (t_fresh T j Hj) as (e & E & Es & Hr & Hp & Hhd). rewrite E in Ej. injection Ej as <-.
    split; [intros x Hx _ Hz; congruence|]. right. assert (HjH : In j (R ++ H)) by (apply in_or_app; auto). destruct (only_held ceq j I HjH E Hr) as (NL & ND & _ & _).
    split; [intros K; apply NL; right; left; exact K|]. split; [intros K; apply NL; right; right; exact K|]. split; [exact ND|].
    assert (K : occ (s_W s) j = 0) by (apply occ_nin; intros K; apply NL; left; exact K). lia.
  Qed.

  Lemma explore_ok : forall own H X s c, Inv own H X s -> asg_of s c = Unknown -> dist s c = depth c -> incl X H ->
    exists own' s', explore ceq g addr s c = Ok s' /\ Inv own' H X s' /\ ex c H s s'.
  Proof.
    intros own H X s c I Hc Hdist HX. destruct (@begin_ok own H X s c I Hc Hdist) as (s1 & ids & F1 & Hnd & Nm & F2 & F3 & F4).
    set (s2 := set_cfg ceq s1 c (mkCfg Zero (length (g c)) (c_dist (s_cfg s c)) (c_deps (s_cfg s c)))) in *.
    unfold explore. rewrite F1. cbn [bind fst snd]. fold s2.
    assert (Hc2 : asg_of s2 c = Zero) by (unfold s2; rewrite asg_set; destruct (ceq c c); [reflexivity|congruence]).
    destruct (@try_all_ok conf ceq g val depth addr Hsol (rev ids) _ c ids ids H X s2 F2 F3 HX Hc2) as (own3 & R & s3 & G1 & G2 & GI & G3 & G4).
    { intros i Hi. apply in_rev. exact Hi. } { apply NoDup_rev. exact Hnd. }
    rewrite G1. cbn [bind]. assert (E3 : ex c H s s3) by (eapply ex_trans; eauto).
    destruct (done (asg_of s3 c)) eqn:Hd.
    - assert (I3 : Inv own3 (R ++ H) X s3) by (eapply trying_X; [exact G2|exact G3|]; intros K; rewrite K in Hd; discriminate).
      destruct (@drop_all_ok ids own3 c R H X s3 I3 G3 HX GI Hnd) as (s4 & K1 & K2 & K3 & K4 & K5 & K6 & K7).
      exists own3, s4. split; [exact K1|]. split; [exact K2|]. destruct E3 as [A1 A2 A3 A4 A5 A6]. split.
      + intros x Hx. rewrite K3. auto.
      + intros q Hq. rewrite K4. auto.
      + congruence.
      + rewrite K6. exact A4.
      + intros q e Hq E. destruct (A5 q e Hq E) as (e1 & E1 & M1). destruct (K7 q e1 Hq E1) as (e2 & E2 & M2). exists e2. split; [exact E2|congruence].
      + unfold asg_of, deps. rewrite K3, K6. exact A6.
    - assert (Hc3 : asg_of s3 c = Zero) by (destruct (x_c E3) as [(K & _)|(K & _)]; congruence).
      destruct (Nat.eqb_spec (c_nsuccs (s_cfg s3 c)) 0) as [Hz|Hz].
      + assert (R = []).
        { destruct R as [|i R]; [reflexivity|]. exfalso. destruct (t_fresh G3 i (or_introl eq_refl)) as (e & E & Es & Hr & Hp & Hhd).
          assert (M : mem ((i :: R) ++ H) s3 i) by (right; right; right; left; left; reflexivity).
          destruct (@owner conf ceq g val depth own3 _ _ s3 i G2 e c M E Es Hhd Hc3) as (k & h & Hk & _). destruct (b_own (proj2 G2) c Hc3) as (_ & K). unfold nsuccs in K. rewrite Hz in K.
          assert (Some i = None) by (eapply somes_0; [symmetry; exact K|exact Hk]). discriminate. }
        subst R. assert (I3 : Inv own3 ([] ++ H) X s3) by exact G2.
        destruct (@drop_all_ok ids own3 c [] H X s3 I3 G3 HX GI Hnd) as (s4 & K1 & K2 & K3 & K4 & K5 & K6 & K7). rewrite K1. cbn [bind].
        assert (Hc4 : asg_of s4 c = Zero) by (unfold asg_of; rewrite K3; exact Hc3).
        assert (Hv : ~ val c) by (eapply (none_left Hsol c K2); [exact Hc4|]; unfold nsuccs; rewrite K3; exact Hz).
        destruct (@final_assign_ok conf ceq g val depth addr own3 H X s4 c CZero K2 Hc4 (or_intror (conj eq_refl Hv))) as (s5 & L1 & L2 & L3 & L4 & L5 & L6 & L7).
        exists own3, s5. split; [exact L1|]. split; [exact L2|]. eapply ex_trans with (s1 := s4); [|exact Hc4|].
        * destruct E3 as [A1 A2 A3 A4 A5 A6]. split.
          -- intros x Hx. rewrite K3. auto.
          -- intros q Hq. rewrite K4. auto.
          -- congruence.
          -- rewrite K6. exact A4.
          -- intros q e Hq E. destruct (A5 q e Hq E) as (e1 & E1 & M1). destruct (K7 q e1 Hq E1) as (e2 & E2 & M2). exists e2. split; [exact E2|congruence].
          -- unfold asg_of, deps. rewrite K3, K6. exact A6.
        * eapply assign_ex; [exact L3|rewrite L4; reflexivity|exact L6|apply incl_refl|exact L7].
      + destruct (@push_all_ok ids own3 c R H X s3 G2 G3 HX Hc3 GI Hnd) as (s4 & K1 & K2 & K3 & K4 & K5 & K6 & K7).
        exists own3, s4. split; [exact K1|]. split; [exact K2|]. destruct E3 as [A1 A2 A3 A4 A5 A6]. split.
        * intros x Hx. rewrite K3. auto.
        * intros q Hq K. auto.
        * congruence.
        * rewrite K6. exact A4.
        * intros q e Hq E. destruct (A5 q e Hq E) as (e1 & E1 & M1). destruct (K7 q e1 Hq E1) as (e2 & E2 & M2). exists e2. split; [exact E2|congruence].
        * unfold asg_of, deps. rewrite K3, K6. exact A6.
  Qed.
End New.
