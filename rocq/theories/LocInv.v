(** Invariant of the local algorithm. *)
From Verif Require Import Base BaseLemmas DgSpec DgModel DgInv DgOps DgSteps DgAssign DgNew LocModel.
Set Implicit Arguments.

Section Loc.
  Variable conf : Type.
  Variable ceq : forall a b : conf, {a = b} + {a <> b}.
  Variable g : graph conf.
  Variable val : conf -> Prop.
  Variable depth : conf -> nat.
  Variable addr : nat -> nat.
  Variable init : conf.
  Hypothesis Hsol : solution g val.
  Hypothesis Hlev : leveled g init depth.
  Notation st := (st conf).
  Notation edge := (edge conf).

  Definition matches (e : edge) (c : conf) (h : hedge conf) : Prop :=
    e_src e = Some c /\ In h (g c) /\ e_tgts e = h_targets h /\ e_neg e = h_neg h.
  (** an edge that will be looked at again, or that waits for a target *)
  Definition wait (s : st) (i : nat) (e : edge) : Prop :=
    In i (s_W s) \/ In i (s_D s) \/ In i (s_N s) \/
    (e_neg e = false /\ exists t, In t (e_tgts e) /\ asg_of s t = Zero /\ In i (deps s t)).
  (** [H]: edges with a counted reference in a local variable; [Y]: the edge under work *)
  Definition held (H Y : list nat) (s : st) (i : nat) (e : edge) : Prop := In i H \/ In i Y \/ wait s i e.
  Definition closed_neg (s : st) (h : hedge conf) : Prop := h_neg h = true /\ forall t, In t (h_targets h) -> asg_of s t = One.
  Definition lokW (s : st) (e : edge) : Prop := e_neg e = true -> e_processed e = true ->
    forall c t, e_src e = Some c -> asg_of s c = Zero -> In t (e_tgts e) -> asg_of s t = One \/ ~ val t.
  Definition lokD (s : st) (e : edge) : Prop := e_neg e = true -> forall t, In t (e_tgts e) -> asg_of s t = One.
  Definition lokN (s : st) (e : edge) : Prop := e_neg e = true /\ forall t, In t (e_tgts e) -> asg_of s t <> Unknown.
  Definition lv (H Y : list nat) (s : st) (i : nat) : Prop := mem H s i \/ In i Y.

  Record LSem (H Y : list nat) (s : st) : Prop := {
    l_live : forall i, lv H Y s i -> exists e c h, ed s i = Some e /\ matches e c h /\ (0 <= e_ref e)%Z /\ asg_of s c <> Unknown;
    l_edge : forall c h, asg_of s c = Zero -> In h (g c) -> closed_neg s h \/ exists i e, ed s i = Some e /\ matches e c h /\ held H Y s i e;
    l_one : forall c, asg_of s c = One -> val c /\ deps s c = [];
    l_cz : forall c, asg_of s c <> CZero;
    l_dist : forall c, dist s c <= depth c;
    l_dist1 : forall c, asg_of s c <> Unknown -> dist s c = depth c;
    l_W : forall i e, In i (s_W s) -> ed s i = Some e -> lokW s e;
    l_D : forall i e, In i (s_D s) -> ed s i = Some e -> lokD s e;
    l_N : forall i e, In i (s_N s) -> ed s i = Some e -> lokN s e;
    l_deps : forall i e t, In i (deps s t) -> ed s i = Some e -> In t (e_tgts e);
    l_un : unproc Y s
  }.
  Arguments l_live {H Y s} _ i _. Arguments l_edge {H Y s} _ c h _ _. Arguments l_one {H Y s} _ c _.
  Arguments l_cz {H Y s} _ c _. Arguments l_dist {H Y s} _ c. Arguments l_dist1 {H Y s} _ c _.
  Arguments l_W {H Y s} _ i e _ _. Arguments l_D {H Y s} _ i e _ _. Arguments l_N {H Y s} _ i e _ _.
  Arguments l_deps {H Y s} _ i e t _ _. Arguments l_un {H Y s} _.
  Definition exact_ref (L : list conf) (H : list nat) (s : st) (i : nat) : Prop := exists e, ed s i = Some e /\ e_ref e = Z.of_nat (tot L H s i).
  Definition RInv (H Y : list nat) (s : st) : Prop := exists L, Refs L H s /\ forall i, In i Y -> exact_ref L H s i.
  Definition LInv (H Y : list nat) (s : st) : Prop := RInv H Y s /\ LSem H Y s.

  Lemma held_lv : forall H Y s i e, held H Y s i e -> lv H Y s i.
  Proof.
    intros H Y s i e [K|[K|[K|[K|[K|(_ & t & _ & _ & K)]]]]]; unfold lv, mem; auto 6. left. right. right. right. right. exists t. exact K.
  Qed.
  Lemma lv_exact : forall H Y s i, RInv H Y s -> lv H Y s i -> exists L e, Refs L H s /\ ed s i = Some e /\ e_ref e = Z.of_nat (tot L H s i) /\ (mem H s i -> (0 < e_ref e)%Z).
  Proof.
    intros H Y s i (L & R & E) [M|K].
    - destruct (mem_ref ceq R M) as (e & A & B & C). exists L, e. split; [exact R|]. split; [exact A|]. split; [exact B|]. lia.
    - destruct (E i K) as (e & A & B). exists L, e. split; [exact R|]. split; [exact A|]. split; [exact B|]. intros M. destruct (mem_ref ceq R M) as (e' & A' & B' & C'). rewrite A in A'. injection A' as <-. lia.
  Qed.
  Lemma lget : forall H Y s i, LInv H Y s -> lv H Y s i ->
    exists e c h, get s i = Ok (e, c) /\ ed s i = Some e /\ matches e c h /\ (0 <= e_ref e)%Z /\ asg_of s c <> Unknown.
  Proof.
    intros H Y s i (R & B) K. destruct (l_live B _ K) as (e & c & h & E & M & Hr & Ha). exists e, c, h. split; [|auto].
    unfold get. rewrite (rd_ok _ _ E). cbn [bind]. rewrite (proj1 M). destruct (Z.ltb_spec (e_ref e) 0); [lia|reflexivity].
  Qed.
  Lemma matches_sem : forall e e' c h, sem e' = sem e -> matches e c h -> matches e' c h.
  Proof. intros e e' c h Es (A & B & C & D). unfold matches. rewrite (sem_src Es), (sem_tgts Es), (sem_neg Es). auto. Qed.

  (** ** Changes outside the configurations *)
  Lemma frame : forall H Y s H' Y' s', LSem H Y s -> (forall c, s_cfg s' c = s_cfg s c) ->
    (forall i, lv H' Y' s' i -> lv H Y s i /\ forall e, ed s i = Some e -> exists e', ed s' i = Some e' /\ sem e' = sem e /\ (0 <= e_ref e')%Z) ->
    (forall i e, In i (s_W s') -> ed s i = Some e -> In i (s_W s) \/ lokW s e) ->
    (forall i e, In i (s_D s') -> ed s i = Some e -> In i (s_D s) \/ lokD s e) ->
    (forall i e, In i (s_N s') -> ed s i = Some e -> In i (s_N s) \/ lokN s e) ->
    (forall i e c h, ed s i = Some e -> matches e c h -> asg_of s c = Zero -> held H Y s i e -> closed_neg s h \/ held H' Y' s' i e) ->
    unproc Y' s' -> LSem H' Y' s'.
  Proof.
    intros H Y s H' Y' s' B Fc Fe FW FD FN FK FU.
    assert (Ea : forall c, asg_of s' c = asg_of s c) by (intros c; unfold asg_of; rewrite Fc; reflexivity).
    assert (Ed : forall c, deps s' c = deps s c) by (intros c; unfold deps; rewrite Fc; reflexivity).
    assert (Ei : forall c, dist s' c = dist s c) by (intros c; unfold dist; rewrite Fc; reflexivity).
    assert (Back : forall i e', lv H' Y' s' i -> ed s' i = Some e' -> exists e, ed s i = Some e /\ sem e' = sem e).
    { intros i e' K E'. destruct (Fe i K) as (K1 & K2). destruct (l_live B _ K1) as (e & c & h & E & _). destruct (K2 e E) as (e2 & E2 & E3 & _). exists e. split; [exact E|congruence]. }
    split.
    - intros i K. destruct (Fe i K) as (K1 & K2). destruct (l_live B _ K1) as (e & c & h & E & M & _ & Ha). destruct (K2 e E) as (e2 & E2 & E3 & E4). exists e2, c, h. split; [exact E2|]. split; [apply (matches_sem E3 M)|]. split; [exact E4|]. rewrite Ea. exact Ha.
    - intros c h Hc Hh. rewrite Ea in Hc. assert (Cl : closed_neg s h -> closed_neg s' h) by (intros (A1 & A2); split; [exact A1|intros t Ht; rewrite Ea; auto]). destruct (l_edge B _ _ Hc Hh) as [K|(i & e & E & M & K)]; [left; auto|].
      destruct (FK i e c h E M Hc K) as [K'|K']; [left; auto|]. right. destruct (Fe i (held_lv K')) as (_ & K2). destruct (K2 e E) as (e2 & E2 & E3 & _). exists i, e2. split; [exact E2|]. split; [apply (matches_sem E3 M)|].
      destruct K' as [K'|[K'|[K'|[K'|[K'|(K1 & t & K4 & K5 & K6)]]]]]; unfold held, wait; auto 7. do 5 right. rewrite (sem_neg E3), (sem_tgts E3). split; [exact K1|]. exists t. auto.
    - intros c Hc. rewrite Ea in Hc. rewrite Ed. apply (l_one B c Hc).
    - intros c. rewrite Ea. apply (l_cz B).
    - intros c. rewrite Ei. apply (l_dist B).
    - intros c Hc. rewrite Ea in Hc. rewrite Ei. apply (l_dist1 B _ Hc).
    - intros i e' Hi E'. destruct (Back i e') as (e & E & Es); [left; left; exact Hi|exact E'|]. assert (G : lokW s e) by (destruct (FW i e Hi E) as [G|G]; [eapply (l_W B); eauto|exact G]).
      intros K1 K2 c t. rewrite !Ea. rewrite (sem_src Es), (sem_tgts Es). rewrite (sem_neg Es) in K1. rewrite (sem_proc Es) in K2. apply G; assumption.
    - intros i e' Hi E'. destruct (Back i e') as (e & E & Es); [left; right; right; left; exact Hi|exact E'|]. assert (G : lokD s e) by (destruct (FD i e Hi E) as [G|G]; [eapply (l_D B); eauto|exact G]).
      intros K1 t. rewrite Ea, (sem_tgts Es). rewrite (sem_neg Es) in K1. apply G; assumption.
    - intros i e' Hi E'. destruct (Back i e') as (e & E & Es); [left; right; left; exact Hi|exact E'|]. assert (G : lokN s e) by (destruct (FN i e Hi E) as [G|G]; [eapply (l_N B); eauto|exact G]).
      destruct G as (G1 & G2). split; [rewrite (sem_neg Es); exact G1|]. intros t. rewrite Ea, (sem_tgts Es). apply G2.
    - intros i e' t Hi E'. destruct (Back i e') as (e & E & Es); [left; right; right; right; right; exists t; exact Hi|exact E'|]. rewrite (sem_tgts Es). rewrite Ed in Hi. eapply (l_deps B); eauto.
    - exact FU.
  Qed.

  (** ** Pushing *)
  Lemma push_gen : forall H Y s i e stt W' N' D', LInv H Y s -> In i H \/ In i Y -> ed s i = Some e ->
    (forall j, j <> i -> occ W' j = occ (s_W s) j /\ occ N' j = occ (s_N s) j /\ occ D' j = occ (s_D s) j) ->
    occ W' i + occ N' i + occ D' i = S (occ (s_W s) i + occ (s_N s) i + occ (s_D s) i) ->
    (In i (s_W s) -> In i W') -> (In i (s_N s) -> In i N') -> (In i (s_D s) -> In i D') ->
    (In i W' -> In i (s_W s) \/ lokW s e) -> (In i D' -> In i (s_D s) \/ lokD s e) -> (In i N' -> In i (s_N s) \/ lokN s e) ->
    (e_processed e = true \/ In i Y \/ (~ In i N' /\ ~ In i D' /\ (forall c, ~ In i (deps s c)) /\ occ W' i <= 1)) ->
    LInv H Y (set_lists (set_edge s i (set_push e stt)) W' N' D').
  Proof.
    intros H Y s i e stt W' N' D' (RI & B) Hi E Ho Hs I1 I2 I3 K1 K2 K3 K4. set (s' := set_lists (set_edge s i (set_push e stt)) W' N' D').
    assert (Lv : lv H Y s i) by (destruct Hi as [Hi|Hi]; [left; right; right; right; left; exact Hi|right; exact Hi]).
    destruct RI as (L & R & Ex).
    assert (Hr : e_ref e = Z.of_nat (tot L H s i)). { destruct Lv as [M|M]; [destruct (mem_ref ceq R M) as (e2 & A1 & A2 & _)|destruct (Ex i M) as (e2 & A1 & A2)]; rewrite E in A1; injection A1 as <-; exact A2. }
    assert (Ei : ed s' i = Some (set_push e stt)) by (eapply ed_set; exact E).
    assert (En : forall j, j <> i -> ed s' j = ed s j) by (intros j Hj; exact (@ed_set_ne conf s i j (set_push e stt) Hj)).
    assert (LW : forall j, In j (s_W s) -> In j W') by (intros j Hj; destruct (Nat.eq_dec j i) as [->|Hn]; [auto|]; apply occ_in; rewrite (proj1 (Ho j Hn)); apply occ_in; exact Hj).
    assert (LN : forall j, In j (s_N s) -> In j N') by (intros j Hj; destruct (Nat.eq_dec j i) as [->|Hn]; [auto|]; apply occ_in; rewrite (proj1 (proj2 (Ho j Hn))); apply occ_in; exact Hj).
    assert (LD : forall j, In j (s_D s) -> In j D') by (intros j Hj; destruct (Nat.eq_dec j i) as [->|Hn]; [auto|]; apply occ_in; rewrite (proj2 (proj2 (Ho j Hn))); apply occ_in; exact Hj).
    assert (Ti : tot L H s' i = S (tot L H s i)). { unfold tot. change (depsum L s' i) with (depsum L s i). cbn [s' set_lists s_W s_N s_D]. lia. }
    assert (Tn : forall j, j <> i -> tot L H s' j = tot L H s j). { intros j Hj. unfold tot. change (depsum L s' j) with (depsum L s j). cbn [s' set_lists s_W s_N s_D]. destruct (Ho j Hj) as (A1 & A2 & A3). lia. }
    assert (Back : forall j, lv H Y s' j -> lv H Y s j).
    { intros j K. destruct (Nat.eq_dec j i) as [->|Hn]; [exact Lv|]. destruct K as [[K|[K|[K|[K|K]]]]|K]; cbn [s' set_lists s_W s_N s_D] in *; unfold lv, mem; auto 7.
      - left. left. apply occ_in. rewrite <- (proj1 (Ho j Hn)). apply occ_in. exact K.
      - left. right. left. apply occ_in. rewrite <- (proj1 (proj2 (Ho j Hn))). apply occ_in. exact K.
      - left. right. right. left. apply occ_in. rewrite <- (proj2 (proj2 (Ho j Hn))). apply occ_in. exact K. }
    assert (InP : In i W' \/ In i N' \/ In i D') by (rewrite !occ_in; lia).
    split.
    - exists L. split.
      + apply Refs_step with (L := L) (H := H) (s := s) (i := i) (e' := set_push e stt); auto; try (solve [apply R]).
        * apply (@ref_nonneg_rec conf L H s i e R E). lia.
        * cbn [e_ref set_push]. rewrite Hr, Ti. lia.
        * intros j Hj [A|[A|A]]; unfold lists; cbn [s' set_lists s_W s_N s_D]; auto.
      + intros j Hj. destruct (Nat.eq_dec j i) as [->|Hn]; [exists (set_push e stt); split; [exact Ei|]; cbn [e_ref set_push]; rewrite Hr, Ti; lia|]. destruct (Ex j Hj) as (ej & A1 & A2). exists ej. rewrite (En j Hn), (Tn j Hn). auto.
    - apply frame with (H := H) (Y := Y) (s := s); auto; cbn [s' set_lists s_W s_N s_D].
      + intros j K. split; [auto|]. intros ej Ej. destruct (Nat.eq_dec j i) as [->|Hn].
        * rewrite E in Ej. injection Ej as <-. exists (set_push e stt). split; [exact Ei|]. split; [reflexivity|]. cbn. lia.
        * exists ej. change (ed s' j = Some ej /\ sem ej = sem ej /\ (0 <= e_ref ej)%Z). rewrite (En j Hn). split; [exact Ej|]. split; [reflexivity|]. destruct (l_live B _ (Back j K)) as (e2 & c2 & h2 & A1 & _ & A2 & _). congruence.
      + intros j ej Hj Ej. destruct (Nat.eq_dec j i) as [->|Hn]; [rewrite E in Ej; injection Ej as <-; auto|]. left. apply occ_in. rewrite <- (proj1 (Ho j Hn)). apply occ_in. exact Hj.
      + intros j ej Hj Ej. destruct (Nat.eq_dec j i) as [->|Hn]; [rewrite E in Ej; injection Ej as <-; auto|]. left. apply occ_in. rewrite <- (proj2 (proj2 (Ho j Hn))). apply occ_in. exact Hj.
      + intros j ej Hj Ej. destruct (Nat.eq_dec j i) as [->|Hn]; [rewrite E in Ej; injection Ej as <-; auto|]. left. apply occ_in. rewrite <- (proj1 (proj2 (Ho j Hn))). apply occ_in. exact Hj.
      + intros j ej c h Ej Mj Hc [K|[K|[K|[K|[K|K]]]]]; right; unfold held, wait; cbn [set_lists s_W s_N s_D]; auto 7.
      + intros j ej Ej Hrj Hp Hj. destruct (Nat.eq_dec j i) as [->|Hn].
        * rewrite Ei in Ej. injection Ej as <-. cbn in Hp. destruct K4 as [K4|[K4|K4]]; [congruence|contradiction|]. exact K4.
        * rewrite (En j Hn) in Ej. destruct (l_un B _ _ Ej Hrj Hp Hj) as (A1 & A2 & A3 & A4). destruct (Ho j Hn) as (B1 & B2 & B3). apply occ_nin in A1, A2. change (~ In j N' /\ ~ In j D' /\ (forall c, ~ In j (deps s c)) /\ occ W' j <= 1). rewrite B1. rewrite !occ_nin, B2, B3. auto.
  Qed.
  Lemma push_D : forall H Y s i e stt, LInv H Y s -> In i H \/ In i Y -> ed s i = Some e -> lokD s e -> e_processed e = true \/ In i Y ->
    LInv H Y (set_lists (set_edge s i (set_push e stt)) (s_W s) (s_N s) (s_D s ++ [i])).
  Proof.
    intros H Y s i e stt I Hi E K Hp. apply push_gen; auto.
    - intros j Hj. rewrite occ_snoc. destruct (Nat.eq_dec i j); [congruence|]. lia.
    - rewrite occ_snoc. destruct (Nat.eq_dec i i); [lia|congruence].
    - intros A. apply in_or_app. auto.
    - tauto.
  Qed.
  Lemma push_N : forall H Y s i e stt, LInv H Y s -> In i H \/ In i Y -> ed s i = Some e -> lokN s e -> e_processed e = true \/ In i Y ->
    LInv H Y (set_lists (set_edge s i (set_push e stt)) (s_W s) (s_N s ++ [i]) (s_D s)).
  Proof.
    intros H Y s i e stt I Hi E K Hp. apply push_gen; auto.
    - intros j Hj. rewrite occ_snoc. destruct (Nat.eq_dec i j); [congruence|]. lia.
    - rewrite occ_snoc. destruct (Nat.eq_dec i i); [lia|congruence].
    - intros A. apply in_or_app. auto.
    - tauto.
  Qed.

  (** ** Giving references back *)
  Lemma release_gen : forall H Y s i e, LInv H Y s -> ed s i = Some e -> e_ref e = 0%Z -> ~ In i Y ->
    exists s', release s i = Ok s' /\ LInv H Y s' /\ (forall c, s_cfg s' c = s_cfg s c) /\ s_W s' = s_W s /\ s_N s' = s_N s /\ s_D s' = s_D s /\ (forall j, j <> i -> ed s' j = ed s j) /\ ~ mem H s' i.
  Proof.
    intros H Y s i e ((L & R & Ex) & B) E Hr HY. unfold release. rewrite (rd_ok _ _ E). cbn [bind]. rewrite Hr. cbn [Z.eqb negb].
    eexists. split; [reflexivity|].
    set (s' := mkSt (s_cfg s) (upd (s_edges s) i (mkEdge None [] false (e_status e) false false (-1))) (i :: s_rec s) (s_W s) (s_N s) (s_D s)).
    assert (T : tot L H s i = 0).
    { destruct (tot L H s i) eqn:T; [reflexivity|]. destruct (r_occ R i) as (e2 & E2 & E3); [lia|]. rewrite E in E2. injection E2 as <-. lia. }
    assert (Hrec : ~ In i (s_rec s)) by (eapply ref_nonneg_rec; [exact R|exact E|lia]).
    assert (Nm : ~ mem H s i) by (rewrite (mem_tot ceq i R); lia).
    assert (Ei : ed s' i = Some (mkEdge None [] false (e_status e) false false (-1))) by (eapply nth_upd_some; exact E).
    assert (En : forall j, j <> i -> ed s' j = ed s j) by (intros j Hj; apply nth_upd_ne; congruence).
    assert (Hst : e_status e = 0).
    { destruct (e_status e) eqn:Es; [reflexivity|]. exfalso. apply Nm. destruct (r_status R i E) as [G|[G|G]]; [lia| | |]; unfold mem; auto. }
    split; [split|].
    - exists L. split; [split; try (solve [apply R])|].
      + intros j Hj. change (tot L H s' j) with (tot L H s j) in *. rewrite En; [apply (r_occ R j Hj)|]. intros ->. lia.
      + intros j [<-|Hj]; [eexists; split; [exact Ei|]; auto|]. rewrite En by congruence. apply (r_rec R j Hj).
      + constructor; [exact Hrec|apply R].
      + intros j e2 Ej Hs. destruct (Nat.eq_dec j i) as [->|Hn]; [|rewrite (En j Hn) in Ej; apply (r_status R j Ej Hs)].
        rewrite Ei in Ej. injection Ej as <-. cbn in Hs. lia.
      + intros j Hj. destruct (Ex j Hj) as (ej & A1 & A2). exists ej. rewrite En by congruence. auto.
    - apply frame with (H := H) (Y := Y) (s := s); auto.
      + intros j K. change (lv H Y s j) in K. split; [exact K|]. intros ej Ej. exists ej. rewrite En by (intros ->; destruct K; contradiction). split; [exact Ej|]. split; [reflexivity|]. destruct (l_live B _ K) as (e2 & c2 & h2 & A1 & _ & A2 & _). congruence.
      + intros j ej Ej Hrj Hp Hj. destruct (Nat.eq_dec j i) as [->|Hn]; [rewrite Ei in Ej; injection Ej as <-; cbn in Hrj; lia|]. rewrite (En j Hn) in Ej. apply (l_un B _ _ Ej Hrj Hp Hj).
    - repeat split; auto.
  Qed.
  Lemma drop_gen : forall H H0 Y s i, LInv H Y s -> (forall j, occ H j = occ (i :: H0) j) -> ~ In i Y ->
    (forall e c h, ed s i = Some e -> matches e c h -> asg_of s c = Zero -> closed_neg s h \/ held H0 Y s i e) ->
    exists s', drop s i = Ok s' /\ LInv H0 Y s' /\ (forall c, s_cfg s' c = s_cfg s c) /\ s_W s' = s_W s /\ s_N s' = s_N s /\ s_D s' = s_D s /\ (forall j, j <> i -> ed s' j = ed s j) /\
      (forall j, mem H0 s' j -> forall e', ed s' j = Some e' -> exists e, ed s j = Some e /\ sem e' = sem e).
  Proof.
    intros H H0 Y s i I HH HY HK. assert (Hi : In i H) by (apply occ_in; rewrite HH, occ_cons; destruct (Nat.eq_dec i i); lia).
    assert (M : mem H s i) by (right; right; right; left; exact Hi). destruct (lget I (or_introl M)) as (e & c & h & G & E & Me & Hr & Ha). destruct I as ((L & R & Ex) & B).
    destruct (mem_ref ceq R M) as (e2 & E6 & E7 & E8). rewrite E in E6. injection E6 as <-.
    set (s1 := set_edge s i (set_ref e (e_ref e - 1))).
    assert (Ei : ed s1 i = Some (set_ref e (e_ref e - 1))) by (eapply ed_set; exact E).
    assert (En : forall j, j <> i -> ed s1 j = ed s j) by (intros j Hj; apply ed_set_ne; exact Hj).
    assert (HI : incl H0 H). { intros x Hx. apply occ_in. rewrite HH, occ_cons. apply occ_in in Hx. lia. }
    assert (Back : forall j, lv H0 Y s1 j -> lv H Y s j) by (intros j [[K|[K|[K|[K|K]]]]|K]; unfold lv, mem; auto 7).
    assert (I1 : LInv H0 Y s1).
    { split.
      - exists L. split.
        + apply Refs_step with (L := L) (H := H) (s := s) (i := i) (e' := set_ref e (e_ref e - 1)); auto; try (solve [apply R]).
          * apply (mem_rec ceq R M).
          * intros j Hj. unfold tot. change (depsum L s1 j) with (depsum L s j). cbn [s1 set_edge s_W s_N s_D]. rewrite HH, occ_cons. destruct (Nat.eq_dec i j); [congruence|]. reflexivity.
          * cbn [e_ref set_ref]. rewrite E7. assert (T : tot L H s i = S (tot L H0 s1 i)); [|lia]. unfold tot. rewrite HH, occ_cons. destruct (Nat.eq_dec i i); [|congruence]. change (depsum L s1 i) with (depsum L s i). cbn [s1 set_edge s_W s_N s_D]. lia.
          * cbn. intros Hs. apply (r_status R i E Hs).
        + intros j Hj. destruct (Ex j Hj) as (ej & A1 & A2). exists ej. rewrite En by congruence. split; [exact A1|]. rewrite A2. unfold tot. change (depsum L s1 j) with (depsum L s j). cbn [s1 set_edge s_W s_N s_D]. rewrite HH, occ_cons. destruct (Nat.eq_dec i j); [congruence|]. reflexivity.
      - apply frame with (H := H) (Y := Y) (s := s); auto.
        + intros j K. split; [auto|]. intros ej Ej. destruct (Nat.eq_dec j i) as [->|Hn].
          * rewrite E in Ej. injection Ej as <-. eexists. split; [exact Ei|]. split; [reflexivity|]. cbn. lia.
          * exists ej. rewrite (En j Hn). split; [exact Ej|]. split; [reflexivity|]. destruct (l_live B _ (Back j K)) as (e2 & c2 & h2 & A1 & _ & A2 & _). congruence.
        + intros j ej cj hj Ej Mj Hcj K. destruct (Nat.eq_dec j i) as [->|Hn]; [apply (HK ej cj hj Ej Mj Hcj)|]. right. destruct K as [K|[K|K]]; [|right; left; exact K|right; right; exact K]. left. apply occ_in in K. rewrite HH, occ_cons in K. destruct (Nat.eq_dec i j); [congruence|]. apply occ_in. exact K.
        + apply unproc_frame with (X := Y) (s := s); auto; [apply B|apply incl_refl|]. intros j e' Ej Hrj Hj. destruct (Nat.eq_dec j i) as [->|Hn]; [rewrite Ei in Ej; injection Ej as <-; exists e; cbn in *; repeat split; auto|]. rewrite (En j Hn) in Ej. exists e'. auto. }
    unfold drop. rewrite G. cbn [bind fst]. change (e_ref (set_ref e (e_ref e - 1))) with (e_ref e - 1)%Z. fold s1.
    assert (Sm : forall j e', ed s1 j = Some e' -> exists e0, ed s j = Some e0 /\ sem e' = sem e0).
    { intros j e' Ej. destruct (Nat.eq_dec j i) as [->|Hn]; [rewrite Ei in Ej; injection Ej as <-; exists e; auto|]. rewrite (En j Hn) in Ej. exists e'. auto. }
    destruct (Z.eqb_spec (e_ref e - 1) 0) as [Z0|Z0].
    - destruct (@release_gen H0 Y s1 i _ I1 Ei Z0 HY) as (s' & F1 & F2 & F3 & F4 & F5 & F6 & F7 & F8). exists s'. split; [exact F1|]. split; [exact F2|]. split; [intros x; rewrite F3; reflexivity|]. split; [exact F4|]. split; [exact F5|]. split; [exact F6|]. split; [intros j Hj; rewrite (F7 j Hj); apply En; exact Hj|].
      intros j Mj e' Ej. apply Sm. rewrite <- Ej. symmetry. apply F7. intros ->. contradiction.
    - exists s1. split; [reflexivity|]. split; [exact I1|]. repeat (split; [reflexivity|]). split; [exact En|]. intros j _ e'. apply Sm.
  Qed.

  (** ** Assigning *)
  Lemma assign_start : forall H Y s c n, LInv H Y s -> asg_of s c <> Unknown -> val c -> (forall i, In i Y -> ~ In i (deps s c)) ->
    LInv (deps s c ++ H) Y (set_cfg ceq s c (mkCfg One n (dist s c) [])).
  Proof.
    intros H Y s c n ((L & R & Ex) & B) Hc Hv HY. set (s' := set_cfg ceq s c (mkCfg One n (dist s c) [])). set (l := deps s c).
    assert (A0 : forall x, asg_of s' x = if ceq x c then One else asg_of s x) by (intros x; apply asg_set).
    assert (D0 : forall x, deps s' x = if ceq x c then [] else deps s x) by (intros x; apply deps_set).
    assert (I0 : forall x, dist s' x = dist s x) by (intros x; unfold s'; rewrite dist_set; destruct (ceq x c) as [->|Hn]; reflexivity).
    assert (Mono : forall x, asg_of s x = One -> asg_of s' x = One) by (intros x Hx; rewrite A0; destruct (ceq x c); auto).
    assert (Kn : forall x, asg_of s x <> Unknown -> asg_of s' x <> Unknown) by (intros x Hx; rewrite A0; destruct (ceq x c); [discriminate|exact Hx]).
    assert (Zr : forall x, asg_of s' x = Zero -> asg_of s x = Zero /\ x <> c) by (intros x Hx; rewrite A0 in Hx; destruct (ceq x c); [discriminate|auto]).
    assert (Tot : forall j, tot L (l ++ H) s' j = tot L H s j).
    { intros j. unfold tot. cbn [s' set_cfg s_W s_N s_D]. rewrite occ_app. destruct (in_dec ceq c L) as [Hin|Hin].
      - pose proof (@depsum_change conf L s s' j c (r_L R) Hin) as K. rewrite (D0 c) in K. destruct (ceq c c); [|congruence]. unfold l. cbn in K. specialize (K ltac:(intros x Hx; rewrite D0; destruct (ceq x c); [congruence|reflexivity])). lia.
      - assert (Hl : l = []) by (apply (r_Ld R c Hin)). rewrite Hl. change (occ [] j) with 0. rewrite (depsum_same L s s' j); [lia|]. intros x Hx. rewrite D0. destruct (ceq x c) as [->|Hn]; [contradiction|reflexivity]. }
    assert (Lv : forall j, lv (l ++ H) Y s' j -> lv H Y s j).
    { intros j [[K|[K|[K|[K|(x & K)]]]]|K]; unfold lv, mem; auto 7.
      - apply in_app_or in K. destruct K as [K|K]; [left; do 4 right; exists c; exact K|auto 7].
      - rewrite D0 in K. destruct (ceq x c); [destruct K|]. left. do 4 right. exists x. exact K. }
    split.
    - exists L. split.
      + apply (@Refs_same conf L H s L (l ++ H) s' R (r_L R)); auto. intros x Hx. rewrite D0. destruct (ceq x c); [reflexivity|apply (r_Ld R x Hx)].
      + intros j Hj. destruct (Ex j Hj) as (ej & A1 & A2). exists ej. rewrite Tot. auto.
    - split.
      + intros j K. destruct (l_live B _ (Lv j K)) as (e & x & h & A1 & A2 & A3 & A4). exists e, x, h. split; [exact A1|]. split; [exact A2|]. split; [exact A3|]. apply Kn. exact A4.
      + intros x h Hx Hh. destruct (Zr x Hx) as (Hz & Hn). destruct (l_edge B _ _ Hz Hh) as [(K1 & K2)|(i & e & E & M & K)]; [left; split; [exact K1|intros t Ht; apply Mono; auto]|]. right. exists i, e. split; [exact E|]. split; [exact M|].
        destruct K as [K|[K|[K|[K|[K|(K1 & t & K2 & K3 & K4)]]]]]; unfold held, wait; [left; apply in_or_app; auto|auto|auto|auto 6|auto 6|].
        destruct (ceq t c) as [->|Ht]; [left; apply in_or_app; left; exact K4|]. do 5 right. split; [exact K1|]. exists t. rewrite A0, D0. destruct (ceq t c); [congruence|auto].
      + intros x Hx. rewrite D0. rewrite A0 in Hx. destruct (ceq x c) as [->|Hn]; [auto|apply (l_one B x Hx)].
      + intros x. rewrite A0. destruct (ceq x c); [discriminate|apply (l_cz B)].
      + intros x. rewrite I0. apply (l_dist B).
      + intros x Hx. rewrite I0. apply (l_dist1 B). rewrite A0 in Hx. destruct (ceq x c) as [->|Hn]; [exact Hc|exact Hx].
      + intros i e Hi E K1 K2 x t Hx Hz Ht. destruct (Zr x Hz) as (Hz' & _). destruct (l_W B _ _ Hi E K1 K2 x t Hx Hz' Ht) as [K|K]; auto.
      + intros i e Hi E K1 t Ht. apply Mono. exact (l_D B _ _ Hi E K1 t Ht).
      + intros i e Hi E. destruct (l_N B _ _ Hi E) as (K1 & K2). split; [exact K1|]. intros t Ht. apply Kn. auto.
      + intros i e t Hi E. rewrite D0 in Hi. destruct (ceq t c); [destruct Hi|]. eapply (l_deps B); eauto.
      + intros i e E Hr Hp Hi. destruct (l_un B _ _ E Hr Hp Hi) as (K1 & K2 & K3 & K4). repeat split; auto. intros x. rewrite D0. destruct (ceq x c); [intros []|apply K3].
  Qed.
  Lemma assign_loop : forall l H Y s c, LInv (l ++ H) Y s -> asg_of s c = One -> (forall i, In i l -> ~ In i Y /\ forall e, ed s i = Some e -> e_processed e = true /\ In c (e_tgts e)) ->
    exists s', each (@assign_dep conf) l s = Ok s' /\ LInv H Y s' /\ (forall x, s_cfg s' x = s_cfg s x) /\ s_W s' = s_W s /\ (forall i, In i Y -> exists e e', ed s i = Some e /\ ed s' i = Some e' /\ sem e' = sem e).
  Proof.
    induction l as [|i l IH]; intros H Y s c I Hc Hl; cbn [each].
    - exists s. split; [reflexivity|]. split; [exact I|]. split; [reflexivity|]. split; [reflexivity|]. intros i Hi. destruct (l_live (proj2 I) _ (or_intror Hi)) as (e & x & h & E & _). exists e, e. auto.
    - assert (Hi : In i ((i :: l) ++ H)) by (left; reflexivity). assert (M : mem ((i :: l) ++ H) s i) by (right; right; right; left; exact Hi).
      destruct (lget I (or_introl M)) as (e & c0 & h & G & E & Me & Hr & Ha). destruct (Hl i (or_introl eq_refl)) as (HY & Hl2). destruct (Hl2 e E) as (Hp & Ht). unfold assign_dep at 1. rewrite G. cbn [bind fst].
      (* the push *)
      assert (P : exists s1, (if e_neg e then push_negation s i else push_dependency s i) = Ok s1 /\ LInv ((i :: l) ++ H) Y s1 /\ (forall x, s_cfg s1 x = s_cfg s x) /\ s_W s1 = s_W s /\
        (forall j, exists f f', (ed s j = None /\ ed s1 j = None) \/ (ed s j = Some f /\ ed s1 j = Some f' /\ sem f' = sem f)) /\
        (asg_of s c0 = Zero -> In i (s_D s1))).
      { assert (Same : forall stt, let s1 := set_lists (set_edge s i (set_push e stt)) (s_W s) (s_N s) (s_D s ++ [i]) in forall j, exists f f', (ed s j = None /\ ed s1 j = None) \/ (ed s j = Some f /\ ed s1 j = Some f' /\ sem f' = sem f)).
        { intros stt s1 j. destruct (Nat.eq_dec j i) as [->|Hn]; [exists e, (set_push e stt); right; split; [exact E|]; split; [exact (ed_set s i (set_push e stt) E)|reflexivity]|].
          assert (En : ed s1 j = ed s j) by exact (@ed_set_ne conf s i j (set_push e stt) Hn). destruct (ed s j) as [f|] eqn:Ej; [exists f, f; right; auto|exists e, e; left; auto]. }
        destruct (e_neg e) eqn:En.
        - unfold push_negation. rewrite G. cbn [bind fst]. assert (Tg : e_tgts e = [c]). { destruct Me as (M1 & M2 & M3 & M4). destruct (lev_neg Hlev c0 h M2 ltac:(congruence)) as (t & Et). rewrite M3, Et in *. destruct Ht as [->|[]]. reflexivity. }
          assert (Dc : decided (set_edge s i (set_push e 3)) (e_tgts e) = true) by (rewrite Tg; apply decided_spec; left; intros t [<-|[]]; exact Hc). rewrite Dc. eexists. split; [reflexivity|].
          assert (KD : lokD s e) by (intros _ t; rewrite Tg; intros [<-|[]]; exact Hc). split; [exact (@push_D ((i :: l) ++ H) Y s i e 3 I (or_introl Hi) E KD (or_introl Hp))|]. split; [reflexivity|]. split; [reflexivity|]. split; [apply Same|]. intros _. cbn. apply in_or_app. right. left. reflexivity.
        - unfold push_dependency. rewrite G. cbn [bind fst snd]. destruct (done (asg_of s c0)) eqn:Hd.
          + exists s. split; [reflexivity|]. split; [exact I|]. split; [reflexivity|]. split; [reflexivity|]. split; [|intros Hz; rewrite Hz in Hd; discriminate]. intros j. destruct (ed s j) as [f|]; [exists f, f; right; auto|exists e, e; left; auto].
          + eexists. split; [reflexivity|]. assert (KD : lokD s e) by (intros K; congruence). split; [match goal with |- context [set_push e ?n] => exact (@push_D ((i :: l) ++ H) Y s i e n I (or_introl Hi) E KD (or_introl Hp)) end|]. split; [reflexivity|]. split; [reflexivity|]. split; [apply Same|]. intros _. cbn. apply in_or_app. right. left. reflexivity. }
      destruct P as (s1 & P1 & P2 & P3 & P4 & P5 & P6). rewrite P1. cbn [bind].
      destruct (@drop_gen ((i :: l) ++ H) (l ++ H) Y s1 i P2) as (s2 & F1 & F2 & F3 & F4 & F5 & F6 & F7 & F8); [reflexivity|exact HY| |].
      { intros e1 c1 h1 E1 M1 Hz. right. right. right. right. left. apply P6. destruct (P5 i) as (f & f' & [(Q1 & Q2)|(Q1 & Q2 & Q3)]); [congruence|]. rewrite E in Q1. injection Q1 as <-. rewrite E1 in Q2. injection Q2 as <-.
        destruct M1 as (M1 & _). destruct Me as (Me & _). rewrite (sem_src Q3) in M1. unfold asg_of in *. rewrite <- (P3 c0). congruence. }
      rewrite F1. cbn [bind]. destruct (IH H Y s2 c F2) as (s3 & G1 & G2 & G3 & G4 & G5).
      + unfold asg_of. rewrite F3, P3. exact Hc.
      + intros j Hj. destruct (Hl j (or_intror Hj)) as (K1 & K2). split; [exact K1|]. intros ej Ej. assert (Mj : mem (l ++ H) s2 j) by (right; right; right; left; apply in_or_app; auto).
        destruct (F8 j Mj ej Ej) as (e1 & E1 & Es1). destruct (P5 j) as (f & f' & [(Q1 & Q2)|(Q1 & Q2 & Q3)]); [congruence|]. destruct (K2 f Q1) as (K3 & K4). rewrite (sem_proc Es1), (sem_tgts Es1). rewrite E1 in Q2. injection Q2 as ->. rewrite (sem_proc Q3), (sem_tgts Q3). auto.
      + exists s3. split; [exact G1|]. split; [exact G2|]. split; [intros x; rewrite G3, F3; apply P3|]. split; [congruence|].
        intros j Hj. destruct (G5 j Hj) as (e2 & e3 & E2 & E3 & Es). assert (Hn : j <> i) by congruence. rewrite (F7 j Hn) in E2. destruct (P5 j) as (f & f' & [(Q1 & Q2)|(Q1 & Q2 & Q3)]); [congruence|]. exists f, e3. split; [exact Q1|]. split; [exact E3|]. congruence.
  Qed.
  Lemma assign_one_ok : forall Y s c, LInv [] Y s -> asg_of s c <> Unknown -> val c -> (forall i, In i Y -> ~ In i (deps s c)) ->
    exists s', assign_one ceq s c = Ok s' /\ LInv [] Y s' /\ (forall x, asg_of s' x = if ceq x c then One else asg_of s x) /\ s_W s' = s_W s /\ (forall i, In i Y -> exists e e', ed s i = Some e /\ ed s' i = Some e' /\ sem e' = sem e).
  Proof.
    intros Y s c I Hc Hv HY. pose proof (@assign_start [] Y s c (c_nsuccs (s_cfg s c)) I Hc Hv HY) as I1. unfold assign_one.
    assert (A : forall x, asg_of (set_cfg ceq s c (mkCfg One (c_nsuccs (s_cfg s c)) (dist s c) [])) x = if ceq x c then One else asg_of s x) by (intros x; apply asg_set).
    destruct (@assign_loop (deps s c) [] Y _ c I1) as (s' & F1 & F2 & F3 & F4 & F5).
    - rewrite A. destruct (ceq c c); congruence.
    - intros i Hi. split; [intros K; exact (HY i K Hi)|]. intros e E. change (ed s i = Some e) in E. split; [|exact (l_deps (proj2 I) _ _ _ Hi E)]. destruct (e_processed e) eqn:Hp; [reflexivity|exfalso].
      assert (M : mem [] s i) by (right; right; right; right; exists c; exact Hi). destruct (l_live (proj2 I) _ (or_introl M)) as (e2 & x & h & E2 & _ & Hr & _). rewrite E in E2. injection E2 as <-.
      destruct (l_un (proj2 I) _ _ E Hr Hp) as (_ & _ & K & _); [intros K; exact (HY i K Hi)|]. exact (K c Hi).
    - exists s'. split; [exact F1|]. split; [exact F2|]. split; [intros x; unfold asg_of; rewrite F3; apply A|]. split; [exact F4|exact F5].
  Qed.
End Loc.
