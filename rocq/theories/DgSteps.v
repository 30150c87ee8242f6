(** The invariant under the steps of the algorithm. *)
From Verif Require Import Base BaseLemmas DgSpec DgModel DgInv DgOps.
Set Implicit Arguments.

Section Steps.
  Variable conf : Type.
  Variable ceq : forall a b : conf, {a = b} + {a <> b}.
  Variable g : graph conf.
  Variable val : conf -> Prop.
  Variable depth : conf -> nat.
  Variable addr : nat -> nat.
  Notation st := (st conf).
  Notation edge := (edge conf).
  Notation Sem := (Sem g val depth).
  Notation Inv := (Inv g val depth).
  Notation okW := (okW val).

  Lemma push_ok : forall own H X s i e stt W' N' D', Inv own H X s -> In i H -> ed s i = Some e -> e_processed e = true \/ In i X ->
    (forall j, j <> i -> occ W' j = occ (s_W s) j /\ occ N' j = occ (s_N s) j /\ occ D' j = occ (s_D s) j) ->
    occ W' i + occ N' i + occ D' i = S (occ (s_W s) i + occ (s_N s) i + occ (s_D s) i) ->
    (In i (s_W s) -> In i W') -> (In i (s_N s) -> In i N') -> (In i (s_D s) -> In i D') ->
    (In i W' -> In i (s_W s) \/ okW s e) -> (In i D' -> In i (s_D s) \/ okD s e) ->
    Inv own H X (set_lists (set_edge s i (set_push e stt)) W' N' D').
  Proof.
    intros own H X s i e stt W' N' D' ((L & R) & B) Hi E Hp Ho Hsum I1 I2 I3 K1 K2. set (s' := set_lists (set_edge s i (set_push e stt)) W' N' D').
    assert (M : mem H s i) by (right; right; right; left; exact Hi). destruct (mem_ref ceq R M) as (e2 & E6 & E7 & E8). rewrite E in E6. injection E6 as <-.
    assert (Ei : ed s' i = Some (set_push e stt)) by (eapply ed_set; exact E).
    assert (En : forall j, j <> i -> ed s' j = ed s j) by (intros j Hj; exact (@ed_set_ne conf s i j (set_push e stt) Hj)).
    assert (LW : forall j, j <> i -> (In j W' <-> In j (s_W s))) by (intros j Hj; rewrite !occ_in; rewrite (proj1 (Ho j Hj)); tauto).
    assert (LN : forall j, j <> i -> (In j N' <-> In j (s_N s))) by (intros j Hj; rewrite !occ_in; rewrite (proj1 (proj2 (Ho j Hj))); tauto).
    assert (LD : forall j, j <> i -> (In j D' <-> In j (s_D s))) by (intros j Hj; rewrite !occ_in; rewrite (proj2 (proj2 (Ho j Hj))); tauto).
    assert (Mm : forall j, mem H s' j -> mem H s j).
    { intros j Mj. destruct (Nat.eq_dec j i) as [->|Hj]; [exact M|]. destruct Mj as [G|[G|[G|G]]]; cbn in G.
      - left. apply (LW j Hj). exact G.
      - right. left. apply (LN j Hj). exact G.
      - right. right. left. apply (LD j Hj). exact G.
      - right. right. right. exact G. }
    split.
    - exists L. apply Refs_step with (L := L) (H := H) (s := s) (i := i) (e' := set_push e stt); auto; try (solve [apply R]).
      + apply (mem_rec ceq R M).
      + intros j Hj. unfold tot. change (depsum L s' j) with (depsum L s j). cbn [s' set_lists set_edge s_W s_N s_D]. destruct (Ho j Hj) as (-> & -> & ->). reflexivity.
      + cbn [e_ref set_push]. rewrite E7. assert (T : tot L H s' i = S (tot L H s i)); [|lia]. unfold tot. change (depsum L s' i) with (depsum L s i).
        cbn [s' set_lists set_edge s_W s_N s_D]. lia.
      + intros _. unfold lists. cbn [s' set_lists set_edge s_W s_N s_D]. rewrite !occ_in. lia.
      + intros j Hj [G|[G|G]]; unfold lists; cbn [s' set_lists set_edge s_W s_N s_D]; [left; apply LW|right; left; apply LN|right; right; apply LD]; auto.
    - apply Sem_frame with (H := H) (X := X) (s := s); auto; try (solve [apply B]).
      + intros j e2 Mj Ej. apply Mm in Mj. destruct (mem_ref ceq R Mj) as (e3 & E3 & E4 & E5). rewrite Ej in E3. injection E3 as <-.
        destruct (Nat.eq_dec j i) as [->|Hn].
        * rewrite E in Ej. injection Ej as <-. eexists. split; [exact Ei|]. split; [reflexivity|]. cbn. lia.
        * exists e2. rewrite (En j Hn). split; [exact Ej|]. split; [reflexivity|]. lia.
      + intros j e2 Hj Ej. cbn in Hj. destruct (Nat.eq_dec j i) as [->|Hn]; [rewrite E in Ej; injection Ej as <-; auto|]. left. apply LW; auto.
      + intros j e2 Hj Ej. cbn in Hj. destruct (Nat.eq_dec j i) as [->|Hn]; [rewrite E in Ej; injection Ej as <-; auto|]. left. apply LD; auto.
      + intros j Hj. right. left. cbn. destruct (Nat.eq_dec j i) as [->|Hn]; [auto|]. apply LW; auto.
      + intros j Hj. right. right. cbn. destruct (Nat.eq_dec j i) as [->|Hn]; [auto|]. apply LD; auto.
      + intros j Hj. right. left. cbn. destruct (Nat.eq_dec j i) as [->|Hn]; [auto|]. apply LN; auto.
      + intros j e2 Ej Hr Hq Hj. destruct (Nat.eq_dec j i) as [->|Hn].
        * rewrite Ei in Ej. injection Ej as <-. cbn in Hq. destruct Hp; [congruence|contradiction].
        * rewrite (En j Hn) in Ej. destruct (b_un B j Ej Hr Hq Hj) as (U1 & U2 & U3 & U4). cbn [s' set_lists set_edge s_W s_N s_D].
          rewrite (LN j Hn), (LD j Hn), (proj1 (Ho j Hn)). auto.
  Qed.
  Lemma occ_snoc : forall l i j, occ (l ++ [i]) j = occ l j + (if Nat.eq_dec i j then 1 else 0).
  Proof. intros. rewrite occ_app, occ_one. reflexivity. Qed.
  Lemma push_D_ok : forall own H X s i e stt, Inv own H X s -> In i H -> ed s i = Some e -> e_processed e = true \/ In i X -> okD s e ->
    Inv own H X (set_lists (set_edge s i (set_push e stt)) (s_W s) (s_N s) (s_D s ++ [i])).
  Proof.
    intros own H X s i e stt I Hi E Hp K. apply push_ok; auto.
    - intros j Hj. rewrite occ_snoc. destruct (Nat.eq_dec i j); [congruence|]. lia.
    - rewrite occ_snoc. destruct (Nat.eq_dec i i); [lia|congruence].
    - intros Hd. apply in_or_app. auto.
  Qed.
  Lemma push_N_ok : forall own H X s i e stt, Inv own H X s -> In i H -> ed s i = Some e -> e_processed e = true \/ In i X ->
    Inv own H X (set_lists (set_edge s i (set_push e stt)) (s_W s) (s_N s ++ [i]) (s_D s)).
  Proof.
    intros own H X s i e stt I Hi E Hp. apply push_ok; auto.
    - intros j Hj. rewrite occ_snoc. destruct (Nat.eq_dec i j); [congruence|]. lia.
    - rewrite occ_snoc. destruct (Nat.eq_dec i i); [lia|congruence].
    - intros Hd. apply in_or_app. auto.
  Qed.
  Lemma push_W_ok : forall own H X s i e stt, Inv own H X s -> In i H -> ed s i = Some e -> e_processed e = true \/ In i X -> okW s e ->
    Inv own H X (set_lists (set_edge s i (set_push e stt)) (s_W s ++ [i]) (s_N s) (s_D s)).
  Proof.
    intros own H X s i e stt I Hi E Hp K. apply push_ok; auto.
    - intros j Hj. rewrite occ_snoc. destruct (Nat.eq_dec i j); [congruence|]. lia.
    - rewrite occ_snoc. destruct (Nat.eq_dec i i); [lia|congruence].
    - intros Hd. apply in_or_app. auto.
  Qed.

  (** * Assignment of a final value *)
  Lemma asg_set : forall (s : st) c v x, asg_of (set_cfg ceq s c v) x = if ceq x c then c_asg v else asg_of s x.
  Proof. intros s c v x. unfold asg_of, set_cfg. cbn. destruct (ceq x c); reflexivity. Qed.
  Lemma deps_set : forall (s : st) c v x, deps (set_cfg ceq s c v) x = if ceq x c then c_deps v else deps s x.
  Proof. intros s c v x. unfold deps, set_cfg. cbn. destruct (ceq x c); reflexivity. Qed.
  Lemma dist_set : forall (s : st) c v x, dist (set_cfg ceq s c v) x = if ceq x c then c_dist v else dist s x.
  Proof. intros s c v x. unfold dist, set_cfg. cbn. destruct (ceq x c); reflexivity. Qed.
  Lemma nsuccs_set : forall (s : st) c v x, nsuccs (set_cfg ceq s c v) x = if ceq x c then c_nsuccs v else nsuccs s x.
  Proof. intros s c v x. unfold nsuccs, set_cfg. cbn. destruct (ceq x c); reflexivity. Qed.

  Definition settles (c : conf) (a : asg) : Prop := (a = One /\ val c) \/ (a = CZero /\ ~ val c).

  Lemma assign_ok : forall own H X s c a, Inv own H X s -> asg_of s c = Zero -> settles c a ->
    Inv own (deps s c ++ H) (deps s c ++ X) (set_cfg ceq s c (mkCfg a 0 (dist s c) [])).
  Proof.
    intros own H X s c a ((L & R) & B) Hc Ha. set (s' := set_cfg ceq s c (mkCfg a 0 (dist s c) [])). set (l := deps s c).
    assert (A0 : forall x, asg_of s' x = if ceq x c then a else asg_of s x) by (intros x; apply asg_set).
    assert (D0 : forall x, deps s' x = if ceq x c then [] else deps s x) by (intros x; apply deps_set).
    assert (I0 : forall x, dist s' x = dist s x) by (intros x; unfold s'; rewrite dist_set; destruct (ceq x c) as [->|]; reflexivity).
    assert (Hd : done a = true) by (destruct Ha as [(-> & _)|(-> & _)]; reflexivity).
    assert (A1 : forall x, asg_of s x = One -> asg_of s' x = One) by (intros x Hx; rewrite A0; destruct (ceq x c); congruence).
    assert (A2 : forall x, asg_of s x = CZero -> asg_of s' x = CZero) by (intros x Hx; rewrite A0; destruct (ceq x c); congruence).
    assert (A3 : forall x, asg_of s' x = Zero -> x <> c /\ asg_of s x = Zero).
    { intros x Hx. rewrite A0 in Hx. destruct (ceq x c) as [->|Hn]; [rewrite Hx in Hd; discriminate|auto]. }
    assert (A4 : forall x, asg_of s' x <> Unknown <-> asg_of s x <> Unknown).
    { intros x. rewrite A0. destruct (ceq x c) as [->|Hn]; [|tauto]. rewrite Hc. split; intros _; [discriminate|]. intros ->. discriminate. }
    assert (A5 : forall x, undone s' x -> x <> c /\ undone s x).
    { intros x Hx. unfold undone in *. rewrite A0 in Hx. destruct (ceq x c); [congruence|auto]. }
    assert (Dm : forall x j, In j (deps s' x) -> In j (deps s x)) by (intros x j; rewrite D0; destruct (ceq x c); [intros []|auto]).
    assert (Mm : forall j, mem (l ++ H) s' j -> mem H s j).
    { intros j [G|[G|[G|[G|(x & G)]]]]; unfold mem.
      - left. exact G.
      - right. left. exact G.
      - right. right. left. exact G.
      - apply in_app_or in G. destruct G as [G|G]; [right; right; right; right; exists c; exact G|auto].
      - right. right. right. right. exists x. apply Dm. exact G. }
    split.
    - exists L. apply Refs_same with (L := L) (H := H) (s := s); auto; try (solve [apply R]).
      + intros x Hx. rewrite D0. destruct (ceq x c); [reflexivity|]. apply (r_Ld R x Hx).
      + intros j. unfold tot. cbn [s' set_cfg s_W s_N s_D]. rewrite occ_app. destruct (in_dec ceq c L) as [G|G].
        * assert (T : depsum L s' j + occ (deps s c) j = depsum L s j + occ (deps s' c) j).
          { apply depsum_change; [apply R|exact G|]. intros x Hx. rewrite D0. destruct (ceq x c); congruence. }
          assert (D1 : deps s' c = []) by (rewrite D0; destruct (ceq c c); congruence). rewrite D1 in T. fold l in T. change (occ [] j) with 0 in T. lia.
        * assert (El : l = []) by (apply (r_Ld R c G)). rewrite El. cbn. assert (T : depsum L s' j = depsum L s j); [|lia].
          apply depsum_same. intros x Hx. rewrite D0. destruct (ceq x c); [congruence|reflexivity].
    - split.
      + intros j M. destruct (b_live B (Mm j M)) as (e & x & E1 & E2 & E3 & E4 & E5). exists e, x. split; [exact E1|]. split; [exact E2|]. split; [exact E3|].
        split; [apply A4; exact E4|]. destruct (ceq x c) as [->|Hx]; [left; rewrite A0; destruct (ceq c c); congruence|].
        destruct E5 as [E5|E5]; [left|right; exact E5]. rewrite A0. destruct (ceq x c); congruence.
      + intros x Hx. apply A3 in Hx. destruct Hx as (Hn & Hx). unfold s'. rewrite nsuccs_set. destruct (ceq x c); [congruence|]. apply (b_own B x Hx).
      + intros x k h i Hx Hh Hk. apply A3 in Hx. destruct Hx as (Hn & Hx). destruct (b_edge B x k Hx Hh Hk) as (e & E1 & (O1 & O2 & O3 & O4 & O5) & E3).
        exists e. split; [exact E1|]. split.
        * split; [exact O1|]. split; [exact O2|]. split; [exact O3|]. split; [exact O4|]. intros t Ht. destruct (O5 t Ht); auto.
        * destruct E3 as [E3|[E3|[E3|(P1 & P2)]]]; [left; apply in_or_app; auto|right; left; exact E3|right; right; left; exact E3|].
          destruct (e_neg e) eqn:Eneg.
          -- right. right. right. split; [exact P1|]. rewrite Eneg. destruct P2 as (P2 & P3). split; [exact P2|]. intros t Ht. apply A4. auto.
          -- destruct P2 as ((t & Ht & Hz) & P3). destruct (in_dec ceq c (e_tgts e)) as [Hin|Hin].
             ++ left. apply in_or_app. left. eapply (b_pdeps B); [exact Hx|exact Hk|exact E1|exact Eneg|exact P1|exact Hin|auto].
             ++ right. right. right. split; [exact P1|]. rewrite Eneg. split.
                ** exists t. split; [exact Ht|]. rewrite A0. destruct (ceq t c); congruence.
                ** intros y Hy. unfold undone. rewrite A0. destruct (ceq y c); [congruence|]. apply P3. exact Hy.
      + intros x k h Hx Hh Hk. apply A3 in Hx. destruct Hx as (Hn & Hx). assert (G := b_block B x k Hx Hh Hk). unfold blocked in *. destruct (h_neg h); [auto|].
        destruct G as (t & G1 & G2). exists t. auto.
      + intros x k k' i Hx. apply A3 in Hx. apply (b_inj B x k k' (proj2 Hx)).
      + apply incl_app; [apply incl_appl, incl_refl|]. apply incl_appr. apply B.
      + intros x Hx. rewrite A0 in Hx. destruct (ceq x c) as [->|Hn]; [|apply (b_one B x Hx)]. destruct Ha as [(_ & G)|(G & _)]; [exact G|congruence].
      + intros x Hx. rewrite A0 in Hx. destruct (ceq x c) as [->|Hn]; [|apply (b_czero B x Hx)]. destruct Ha as [(G & _)|(_ & G)]; [congruence|exact G].
      + intros x. rewrite I0. apply B.
      + intros x Hx. rewrite I0. apply (b_dist1 B). apply A4. exact Hx.
      + intros x Hx. rewrite I0. apply (b_dist2 B). rewrite D0 in Hx. destruct (ceq x c); congruence.
      + intros i e t Hi E Hn x Hx. apply Dm in Hi. eapply (b_deps B); eauto.
      + intros x k i e t Hx Hk E Hn Hp Ht Hu. apply A3 in Hx. apply A5 in Hu. destruct Hu as (Hu1 & Hu2). rewrite D0. destruct (ceq t c); [congruence|].
        eapply (b_pdeps B); [apply Hx|exact Hk|exact E|exact Hn|exact Hp|exact Ht|exact Hu2].
      + intros i e Hi E. assert (G := b_W B i Hi E). intros x G1 G2 G3 G4 G5 t Ht. apply A3 in G5. destruct (G x G1 G2 G3 G4 (proj2 G5) t Ht) as (K1 & K2).
        split; [apply A4; exact K1|]. destruct (ceq t c) as [->|Hn].
        * destruct Ha as [(-> & _)|(_ & Ha)]; [left|right; exact Ha]. rewrite A0. destruct (ceq c c); congruence.
        * rewrite A0. destruct (ceq t c); [congruence|exact K2].
      + intros i e Hi E. assert (G := b_D B i Hi E). intros x G1 G3 G4 G5. apply A3 in G5. assert (K := G x G1 G3 G4 (proj2 G5)). rewrite decided_spec in *.
        destruct K as [K|(t & K1 & K2)]; [left; auto|right; exists t; auto].
      + intros j e E Hr Hp Hj. assert (Hj' : ~ In j X) by (intros G; apply Hj; apply in_or_app; auto). destruct (b_un B j E Hr Hp Hj') as (U1 & U2 & U3 & U4).
        split; [exact U1|]. split; [exact U2|]. split; [|exact U4]. intros x G. apply (U3 x). apply Dm. exact G.
  Qed.
End Steps.
