(** Range vectors read place by place. *)
From Verif Require Import Base BaseLemmas RangeSpec RangeModel RangeProofs StubModel TarModel.
From Coq Require Import Sorted.

(** the range of a place *)
Definition rg (v : rvec) (p : nat) : range := match lookup v p with Some r => r | None => (0%N, rmax) end.

Lemma lookup_lt : forall v p, sorted_vec v -> (forall q r, In (q, r) v -> p < q) -> lookup v p = None.
Proof.
  intros v p _ H. destruct v as [|(q, r) v]; [reflexivity|]. cbn [lookup]. specialize (H q r (or_introl eq_refl)).
  destruct (q <? p) eqn:E; [apply Nat.ltb_lt in E; lia|]. destruct (Nat.eqb q p) eqn:F; [apply Nat.eqb_eq in F; lia|reflexivity].
Qed.
Lemma rg_at : forall v p f q, sorted_vec v -> rg (at_place v p f) q = if Nat.eqb q p then f (rg v p) else rg v q.
Proof.
  unfold rg. induction v as [|(a, r) v IH]; intros p f q S; cbn [at_place].
  - cbn [lookup]. destruct (Nat.eqb_spec q p); [subst; rewrite Nat.ltb_irrefl, Nat.eqb_refl; reflexivity|].
    destruct (p <? q); [reflexivity|]. destruct (Nat.eqb_spec p q); [congruence|reflexivity].
  - destruct (sorted_cons S) as (S' & Hlt). destruct (a <? p) eqn:E1.
    + apply Nat.ltb_lt in E1. cbn [lookup]. replace (a <? p) with true by (symmetry; apply Nat.ltb_lt; exact E1).
      destruct (a <? q) eqn:E2; [exact (IH p f q S')|]. apply Nat.ltb_ge in E2. destruct (Nat.eqb_spec q p); [lia|reflexivity].
    + apply Nat.ltb_ge in E1. destruct (Nat.eqb_spec a p) as [->|NE].
      * cbn [lookup]. rewrite Nat.ltb_irrefl, Nat.eqb_refl. destruct (p <? q) eqn:E2.
        -- apply Nat.ltb_lt in E2. destruct (Nat.eqb_spec q p); [lia|reflexivity].
        -- destruct (Nat.eqb_spec p q), (Nat.eqb_spec q p); try congruence.
      * cbn [lookup]. destruct (p <? q) eqn:E2.
        -- apply Nat.ltb_lt in E2. destruct (Nat.eqb_spec q p); [lia|reflexivity].
        -- apply Nat.ltb_ge in E2. replace (a <? p) with false by (symmetry; apply Nat.ltb_ge; lia).
           destruct (Nat.eqb_spec a p); [lia|]. destruct (Nat.eqb_spec p q) as [->|N2].
           ++ rewrite Nat.eqb_refl. reflexivity.
           ++ destruct (Nat.eqb_spec q p); [congruence|]. replace (a <? q) with false by (symmetry; apply Nat.ltb_ge; lia).
              destruct (Nat.eqb_spec a q); [lia|reflexivity].
Qed.
Lemma rg_find : forall v p q, sorted_vec v -> rg (find_or_add v p) q = rg v q.
Proof. intros v p q S. unfold find_or_add. rewrite rg_at by exact S. destruct (Nat.eqb_spec q p); subst; reflexivity. Qed.
Lemma rg_in : forall v p r, sorted_vec v -> In (p, r) v -> rg v p = r.
Proof. intros v p r S H. unfold rg. rewrite (proj2 (@lookup_ok v p S r) H). reflexivity. Qed.
Lemma rg_nil : forall p, rg [] p = (0%N, rmax). Proof. reflexivity. Qed.
Lemma rg_out : forall v p, sorted_vec v -> ~ In p (map fst v) -> rg v p = (0%N, rmax).
Proof.
  intros v p S H. unfold rg. destruct (lookup v p) as [r|] eqn:E; [|reflexivity]. exfalso. apply H. apply (@lookup_ok v p S r) in E.
  apply in_map_iff. exists (p, r). auto.
Qed.
Lemma compact_sorted : forall v, sorted_vec v -> sorted_vec (compact v).
Proof. intros v S. apply sorted_filter. exact S. Qed.
Lemma rg_compact : forall v p, sorted_vec v -> rg (compact v) p = rg v p.
Proof.
  intros v p S. unfold rg. destruct (lookup v p) as [r|] eqn:E.
  - apply (@lookup_ok v p S r) in E. destruct (unbound r) eqn:U.
    + assert (X : lookup (compact v) p = None).
      { apply (@lookup_none (compact v) p (compact_sorted v S)). intros r' H. apply filter_In in H. destruct H as (H & F).
        assert (r' = r). { apply (@lookup_ok v p S r') in H. apply (@lookup_ok v p S r) in E. congruence. } subst. cbn in F. rewrite U in F. discriminate. }
      rewrite X. apply unbound_spec in U. destruct U as (A & B). destruct r; cbn in *; subst. reflexivity.
    + assert (X : In (p, r) (compact v)) by (apply filter_In; split; [exact E|cbn; rewrite U; reflexivity]).
      apply (@lookup_ok (compact v) p (compact_sorted v S) r) in X. rewrite X. reflexivity.
  - assert (X : lookup (compact v) p = None); [|rewrite X; reflexivity].
    apply (@lookup_none (compact v) p (compact_sorted v S)). intros r H. apply filter_In in H. destruct H as (H & _).
    apply (@lookup_none v p S) with (r := r) in E. contradiction.
Qed.
Lemma in_vec_rg : forall v m, sorted_vec v -> (in_vec v m <-> forall p, in_range (rg v p) (m p)).
Proof.
  intros v m S. split.
  - intros H p. unfold rg. destruct (lookup v p) as [r|] eqn:E; [apply H; apply (@lookup_ok v p S r); exact E|].
    split; cbn; [lia|left; reflexivity].
  - intros H p r I. rewrite <- (rg_in v p r S I). apply H.
Qed.
Lemma at_sorted : forall v p f, sorted_vec v -> sorted_vec (at_place v p f).
Proof. intros. apply at_place_sorted. assumption. Qed.
Lemma and_one_at : forall v p x, (snd x <= rmax)%N -> v_and_one v p x = at_place v p (fun r => r_and r x).
Proof.
  intros v p x H. assert (E : r_and (0%N, rmax) x = x).
  { unfold r_and; cbn [fst snd]. destruct x as (a, b); cbn in *. f_equal; lia. }
  induction v as [|(q, r) v IH]; cbn [v_and_one at_place]; [rewrite E; reflexivity|].
  destruct (q <? p); [rewrite IH; reflexivity|]. destruct (Nat.eqb q p); [reflexivity|rewrite E; reflexivity].
Qed.
Lemma mod_inv : forall v p f w, v_mod v p f = Ok w -> exists r, f (rg v p) = Ok r /\ w = at_place v p (fun _ => r).
Proof. unfold v_mod, rg. intros v p f w H. destruct (f _) as [r| | |]; try discriminate. injection H as <-. exists r. auto. Qed.

(** places of a vector *)
Definition within (v : rvec) (X : nat -> Prop) : Prop := forall p r, In (p, r) v -> X p.
Lemma within_at : forall v p f (X : nat -> Prop), within v X -> X p -> within (at_place v p f) X.
Proof.
  intros v p f X H Hp q r I. assert (G : In q (map fst (at_place v p f))) by (apply in_map_iff; exists (q, r); auto).
  apply at_place_fst in G. destruct G as [->|G]; [exact Hp|]. apply in_map_iff in G. destruct G as ((a, b) & E & I2). cbn in E. subst. exact (H q b I2).
Qed.
Lemma within_compact : forall v (X : nat -> Prop), within v X -> within (compact v) X.
Proof. intros v X H p r I. apply filter_In in I. exact (H p r (proj1 I)). Qed.
Lemma within_nil : forall (X : nat -> Prop), within [] X. Proof. intros X p r []. Qed.
Lemma within_out : forall v (X : nat -> Prop) p, sorted_vec v -> within v X -> ~ X p -> rg v p = (0%N, rmax).
Proof.
  intros v X p S W H. apply rg_out; [exact S|]. intros I. apply in_map_iff in I. destruct I as ((a, b) & E & I). cbn in E. subst. exact (H (W p b I)).
Qed.

(** well-formed vectors: sorted, places below [np], upper bounds of 32 bits *)
Definition capped (v : rvec) : Prop := forall p, (snd (rg v p) <= rmax)%N.
Definition okv (np : nat) (v : rvec) : Prop := sorted_vec v /\ within v (fun p => p < np) /\ capped v.
Lemma okv_nil : forall np, okv np [].
Proof. intros np. split; [constructor|]. split; [apply within_nil|]. intros p. cbn. lia. Qed.
Lemma okv_at : forall np v p f, okv np v -> p < np -> ((snd (rg v p) <= rmax)%N -> (snd (f (rg v p)) <= rmax)%N) -> okv np (at_place v p f).
Proof.
  intros np v p f (S & W & C) Hp Hf. split; [apply at_sorted; exact S|]. split; [apply within_at; assumption|].
  intros q. rewrite rg_at by exact S. destruct (Nat.eqb q p); [apply Hf; apply C|apply C].
Qed.
Lemma okv_compact : forall np v, okv np v -> okv np (compact v).
Proof.
  intros np v (S & W & C). split; [apply compact_sorted; exact S|]. split; [apply within_compact; exact W|].
  intros p. rewrite rg_compact by exact S. apply C.
Qed.
Lemma okv_find : forall np v p, okv np v -> p < np -> okv np (find_or_add v p).
Proof. intros. apply okv_at; auto. Qed.
Lemma is_true_rg : forall v p, is_true v = true -> rg v p = (0%N, rmax).
Proof. intros v p H. destruct v; [reflexivity|discriminate]. Qed.

(** a vector of [np] places that all have at most no token *)
Lemma sorted_bound : forall l a np, StronglySorted lt l -> (forall x, In x l -> a <= x < np) -> length l <= np - a.
Proof.
  induction l as [|x l IH]; intros a np S H; [cbn; lia|]. inversion S as [|? ? S' F]; subst. rewrite Forall_forall in F.
  pose proof (H x (or_introl eq_refl)). cbn [length]. specialize (IH (Datatypes.S x) np S'). 
  assert (forall y, In y l -> Datatypes.S x <= y < np) by (intros y Iy; specialize (F y Iy); specialize (H y (or_intror Iy)); lia). specialize (IH H1). lia.
Qed.
Lemma sorted_full : forall l a np, StronglySorted lt l -> (forall x, In x l -> a <= x < np) -> length l = np - a -> forall p, a <= p < np -> In p l.
Proof.
  induction l as [|x l IH]; intros a np S H L p Hp; cbn [length] in L; [lia|]. inversion S as [|? ? S' F]; subst. rewrite Forall_forall in F.
  pose proof (H x (or_introl eq_refl)) as Hx.
  assert (B : forall y, In y l -> Datatypes.S x <= y < np) by (intros y Iy; specialize (F y Iy); specialize (H y (or_intror Iy)); lia).
  pose proof (sorted_bound l (Datatypes.S x) np S' B). destruct (Nat.eq_dec p x) as [->|NE]; [left; reflexivity|right].
  apply (IH (Datatypes.S x) np S' B); lia.
Qed.
Lemma is_false_zero : forall np v m, okv np v -> is_false np v = true -> in_vec v m -> forall p, p < np -> m p = 0%N.
Proof.
  intros np v m (S & W & _) H I p Hp. unfold is_false in H. apply andb_true_iff in H. destruct H as (L & F). apply Nat.eqb_eq in L. rewrite forallb_forall in F.
  assert (X : In p (map fst v)).
  { apply (sorted_full (map fst v) 0 np S); [|rewrite map_length; lia|lia]. intros x Ix. apply in_map_iff in Ix. destruct Ix as ((a, b) & E & Ix). cbn in E. subst. specialize (W x b Ix). cbn in W. lia. }
  apply in_map_iff in X. destruct X as ((a, r) & E & X). cbn in E. subst. specialize (F _ X). cbn in F. apply andb_true_iff in F. destruct F as (F1 & F2).
  apply N.eqb_eq in F2. specialize (I p r X). destruct I as (_ & [I|I]); unfold infinite in *; lia.
Qed.

(** ** The inclusion test, read off the entries *)
Definition incl_vec (s o : rvec) : Prop :=
  forall p r, In (p, r) s -> exists t, In (p, t) o /\ (fst r <= fst t)%N /\ (snd t <= snd r)%N.
Lemma incl_vec_sem : forall s o m, (forall p t, In (p, t) s -> (snd t <= rmax)%N) -> incl_vec s o -> in_vec o m -> in_vec s m.
Proof.
  intros s o m Cs H I p r Ir. destruct (H p r Ir) as (t & It & A & B). destruct (I p t It) as (X & Y). pose proof (Cs p r Ir). split; [lia|].
  destruct Y as [Y|Y]; [left; unfold rmax, infinite in *; lia|right; lia].
Qed.
Lemma incl_refl_vec : forall s, incl_vec s s. Proof. intros s p r I. exists r. split; [exact I|lia]. Qed.
Lemma incl_trans_vec : forall s o u, incl_vec s o -> incl_vec o u -> incl_vec s u.
Proof.
  intros s o u A B p r I. destruct (A p r I) as (t & It & X & Y). destruct (B p t It) as (w & Iw & Z & W). exists w. split; [exact Iw|lia].
Qed.
Lemma incl_antisym : forall s o, sorted_vec s -> sorted_vec o -> incl_vec s o -> incl_vec o s -> s = o.
Proof.
  induction s as [|(p, r) s IH]; intros o S1 S2 A B.
  - destruct o as [|(q, t) o]; [reflexivity|]. destruct (B q t (or_introl eq_refl)) as (x & [] & _).
  - destruct o as [|(q, t) o]; [destruct (A p r (or_introl eq_refl)) as (x & [] & _)|].
    destruct (sorted_cons S1) as (S1' & L1). destruct (sorted_cons S2) as (S2' & L2).
    assert (E : p = q).
    { destruct (A p r (or_introl eq_refl)) as (x & [E|I] & _); [congruence|]. destruct (B q t (or_introl eq_refl)) as (y & [E|J] & _); [congruence|].
      specialize (L1 _ _ J). specialize (L2 _ _ I). lia. }
    subst q. assert (E : r = t).
    { destruct (A p r (or_introl eq_refl)) as (x & [E|I] & X & Y); [|specialize (L2 _ _ I); lia]. injection E as <-.
      destruct (B p t (or_introl eq_refl)) as (y & [E|J] & Z & W); [|specialize (L1 _ _ J); lia]. injection E as <-. destruct r, t; cbn in *. f_equal; lia. }
    subst t. f_equal. apply IH; auto; intros a x I.
    + destruct (A a x (or_intror I)) as (y & [E|J] & XY); [injection E as E _; specialize (L1 _ _ I); lia|exists y; auto].
    + destruct (B a x (or_intror I)) as (y & [E|J] & XY); [injection E as E _; specialize (L2 _ _ I); lia|exists y; auto].
Qed.
Lemma compare_incl : forall s o a b, sorted_vec s -> sorted_vec o ->
  (fst (v_compare s o a b) = true <-> a = true /\ incl_vec s o) /\ (snd (v_compare s o a b) = true <-> b = true /\ incl_vec o s).
Proof.
  induction s as [|(p, r) s IHs].
  - intros o a b _ _. destruct o as [|(q, t) o]; cbn [v_compare fst snd].
    + rewrite andb_true_r. split; (split; [intros H; split; [exact H|intros ? ? []]|tauto]).
    + rewrite andb_false_r. split; (split; [intros H|]).
      * split; [exact H|intros ? ? []].
      * tauto.
      * discriminate.
      * intros (_ & H). destruct (H q t (or_introl eq_refl)) as (x & [] & _).
  - induction o as [|(q, t) o IHo]; intros a b S1 S2.
    + cbn [v_compare fst snd]. split; (split; [intros H|]).
      * discriminate.
      * intros (_ & H). destruct (H p r (or_introl eq_refl)) as (x & [] & _).
      * split; [exact H|intros ? ? []].
      * tauto.
    + destruct (sorted_cons S1) as (S1' & L1). destruct (sorted_cons S2) as (S2' & L2). cbn [v_compare].
      destruct (Nat.eqb_spec p q) as [<-|NE].
      * assert (X : forall x y u w, sorted_vec ((p, x) :: u) -> sorted_vec ((p, y) :: w) ->
          (incl_vec ((p, x) :: u) ((p, y) :: w) <-> ((fst x <= fst y)%N /\ (snd y <= snd x)%N) /\ incl_vec u w)).
        { intros x y u w A B. destruct (sorted_cons A) as (_ & LA). destruct (sorted_cons B) as (_ & LB). split.
          - intros H. split.
            + destruct (H p x (or_introl eq_refl)) as (z & [E|I] & Z); [injection E as <-; exact Z|specialize (LB _ _ I); lia].
            + intros k z I. destruct (H k z (or_intror I)) as (z2 & [E|J] & Z); [injection E as E _; specialize (LA _ _ I); lia|exists z2; auto].
          - intros (E & H) k z [K|I]; [injection K as <- <-; exists y; split; [left; reflexivity|exact E]|].
            destruct (H k z I) as (z2 & J & Z). exists z2. split; [right; exact J|exact Z]. }
        assert (R : fst (r_compare r t) = true <-> (fst r <= fst t)%N /\ (snd t <= snd r)%N) by (unfold r_compare; cbn [fst]; rewrite andb_true_iff, !N.leb_le; tauto).
        assert (R2 : snd (r_compare r t) = true <-> (fst t <= fst r)%N /\ (snd r <= snd t)%N) by (unfold r_compare; cbn [snd]; rewrite andb_true_iff, !N.leb_le; tauto).
        cbv zeta. rewrite (X r t s o S1 S2), (X t r o s S2 S1), <- R, <- R2.
        destruct (negb (a && fst (r_compare r t)) && negb (b && (b && snd (r_compare r t)))) eqn:E.
        -- cbn [fst snd]. rewrite !andb_true_iff. apply andb_true_iff in E. destruct E as (E1 & E2). apply negb_true_iff in E1, E2.
           apply andb_false_iff in E1. assert (E2' : b = false \/ snd (r_compare r t) = false) by (destruct b, (snd (r_compare r t)); auto).
           split; [destruct E1; intuition congruence|destruct E2'; intuition congruence].
        -- destruct (IHs o (a && fst (r_compare r t)) (b && (b && snd (r_compare r t))) S1' S2') as (A & B). rewrite A, B, !andb_true_iff. tauto.
      * destruct (p <? q) eqn:E.
        -- apply Nat.ltb_lt in E. assert (N1 : ~ incl_vec ((p, r) :: s) ((q, t) :: o)).
           { intros H. destruct (H p r (or_introl eq_refl)) as (x & [K|I] & _); [congruence|specialize (L2 _ _ I); lia]. }
           assert (X : incl_vec ((q, t) :: o) ((p, r) :: s) <-> incl_vec ((q, t) :: o) s).
           { split; intros H k x I; destruct (H k x I) as (y & J & Y).
             - destruct J as [K|J]; [|exists y; auto]. injection K as <- <-. destruct I as [K|I]; [congruence|specialize (L2 _ _ I); lia].
             - exists y. split; [right; exact J|exact Y]. }
           destruct b; cbn [negb].
           ++ destruct (IHs ((q, t) :: o) false true S1' S2) as (A & B). rewrite A, B, X. intuition congruence.
           ++ cbn [fst snd]. intuition congruence.
        -- apply Nat.ltb_ge in E. assert (N1 : ~ incl_vec ((q, t) :: o) ((p, r) :: s)).
           { intros H. destruct (H q t (or_introl eq_refl)) as (x & [K|I] & _); [congruence|specialize (L1 _ _ I); lia]. }
           assert (X : incl_vec ((p, r) :: s) ((q, t) :: o) <-> incl_vec ((p, r) :: s) o).
           { split; intros H k x I; destruct (H k x I) as (y & J & Y).
             - destruct J as [K|J]; [|exists y; auto]. injection K as <- <-. destruct I as [K|I]; [congruence|specialize (L1 _ _ I); lia].
             - exists y. split; [right; exact J|exact Y]. }
           destruct a; cbn [negb].
           ++ destruct (IHo true false S1 S2') as (A & B). change ((fix inner (o0 : rvec) (a b0 : bool) {struct o0} : bool * bool := _) o true false) with (v_compare ((p, r) :: s) o true false).
              rewrite A, B, X. intuition congruence.
           ++ cbn [fst snd]. intuition congruence.
Qed.
Lemma compare_fst : forall s o, sorted_vec s -> sorted_vec o -> (fst (compare s o) = true <-> incl_vec s o).
Proof. intros s o A B. destruct (compare_incl s o true true A B) as (H & _). unfold compare. rewrite H. tauto. Qed.
Lemma compare_snd : forall s o, sorted_vec s -> sorted_vec o -> (snd (compare s o) = true <-> incl_vec o s).
Proof. intros s o A B. destruct (compare_incl s o true true A B) as (_ & H). unfold compare. rewrite H. tauto. Qed.

(** ** Sorted sets *)
Lemma sins_in : forall x l y, In y (sins x l) <-> y = x \/ In y l.
Proof.
  intros x l y. induction l as [|z l IH]; cbn [sins]; [cbn; intuition|]. destruct (x <? z); [cbn; intuition|].
  destruct (Nat.eqb_spec x z) as [->|]; [cbn; intuition|]. cbn [In]. rewrite IH. tauto.
Qed.
Lemma sins_all_in : forall xs l y, In y (sins_all xs l) <-> In y xs \/ In y l.
Proof.
  unfold sins_all. induction xs as [|x xs IH]; intros l y; cbn [fold_left In]; [tauto|]. rewrite IH, sins_in. intuition.
Qed.
Lemma sins_sorted : forall x l, StronglySorted lt l -> StronglySorted lt (sins x l).
Proof.
  intros x l S. induction l as [|z l IH]; cbn [sins]; [constructor; constructor|]. inversion S as [|? ? S' F]; subst.
  destruct (x <? z) eqn:E.
  - apply Nat.ltb_lt in E. constructor; [exact S|]. constructor; [exact E|]. rewrite Forall_forall in *. intros y Iy. specialize (F y Iy). lia.
  - apply Nat.ltb_ge in E. destruct (Nat.eqb_spec x z); [exact S|]. constructor; [auto|]. rewrite Forall_forall in *. intros y Iy. apply sins_in in Iy. destruct Iy as [->|Iy]; [lia|auto].
Qed.
Lemma sins_all_sorted : forall xs l, StronglySorted lt l -> StronglySorted lt (sins_all xs l).
Proof. unfold sins_all. induction xs as [|x xs IH]; intros l S; cbn [fold_left]; [exact S|]. apply IH, sins_sorted, S. Qed.
