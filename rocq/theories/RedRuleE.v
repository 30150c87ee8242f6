(** Rules E, F, M, N, O and P: the fixed point of the places that can gain or lose tokens. *)
From Verif Require Import Base BaseLemmas NetSpec NetModel BuilderModel RedTheory RedSpec RedModel RedProofs RedNet RedRules RedRuleJ RedAgg RedOps RedRuleFNO.
Set Implicit Arguments.

(** ** Monotone changes of the state *)
Record grows (s s' : efm) : Prop := {
  gr_inc : forall p, e_inc s p = true -> e_inc s' p = true;
  gr_dec : forall p, e_dec s p = true -> e_dec s' p = true;
  gr_low : forall p, (e_low s' p <= e_low s p)%N;
  gr_done : forall t, e_done s' t = e_done s t;
  gr_q : forall t, In t (e_q s) -> In t (e_q s') }.
Lemma grows_refl : forall s, grows s s.
Proof. intros s. constructor; auto. intros p. lia. Qed.
Lemma grows_trans : forall a b c, grows a b -> grows b c -> grows a c.
Proof. intros a b c [A1 A2 A3 A4 A5] [B1 B2 B3 B4 B5]. constructor; auto; [intros p; specialize (A3 p); specialize (B3 p); lia|intros t; rewrite B4; apply A4]. Qed.
(** an input arc that the places of the state cannot satisfy *)
Definition blocked_arc (b : builder) (s : efm) (a : arc) : Prop :=
  if arc_inhib a then (arc_weight a <= init_at b (arc_place a))%N /\ e_dec s (arc_place a) = false
  else (init_at b (arc_place a) < arc_weight a)%N /\ e_inc s (arc_place a) = false.
Definition blocked (b : builder) (s : efm) (t : nat) : Prop := exists a, In a (bt_pre (tr_of b t)) /\ blocked_arc b s a.
(** every transition that is not processed is in the queue, blocked, or still to be considered *)
Definition covered (b : builder) (X : nat -> Prop) (s : efm) : Prop :=
  forall t, live b t = true -> e_done s t = false -> In t (e_q s) \/ blocked b s t \/ X t.
(** the effect at one place is recorded *)
Definition noted (s : efm) (x : atr) (p : nat) : Prop :=
  ((a_out x p < a_in x p)%N -> e_dec s p = true /\ (e_low s p <= a_out x p)%N) /\ ((a_in x p < a_out x p)%N -> e_inc s p = true).
Lemma noted_grows : forall s s' x p, grows s s' -> noted s x p -> noted s' x p.
Proof.
  intros s s' x p Gr (H1 & H2). split.
  - intros H. destruct (H1 H) as (A & B). split; [apply (gr_dec Gr); exact A|]. pose proof (gr_low Gr p). lia.
  - intros H. apply (gr_inc Gr). apply H2. exact H.
Qed.
Lemma process_inc_ok : forall b X p s, good b -> covered b X s -> let s' := process_inc b p s in grows s s' /\ covered b X s' /\ e_inc s' p = true.
Proof.
  intros b X p s G C s'. unfold s', process_inc. destruct (e_inc s p) eqn:E; [split; [apply grows_refl|split; [exact C|exact E]]|].
  split; [|split].
  - constructor; cbn [e_inc e_dec e_low e_done e_q]; auto; [intros q Hq; unfold fset; destruct (Nat.eqb q p); auto|intros q; lia|intros t Ht; apply in_or_app; left; exact Ht].
  - intros t L D. cbn [e_done] in D. destruct (C t L D) as [H|[(a & Ha & B)|H]]; [left; cbn [e_q]; apply in_or_app; left; exact H| |right; right; exact H].
    unfold blocked_arc in B. destruct (arc_inhib a) eqn:I; [right; left; exists a; split; [exact Ha|]; unfold blocked_arc; rewrite I; exact B|].
    destruct (Nat.eq_dec (arc_place a) p) as [Ep|Hp].
    + left. cbn [e_q]. apply in_or_app. right. apply filter_In. split; [apply (g_cons G); rewrite <- Ep; apply in_map; exact Ha|rewrite D; reflexivity].
    + right. left. exists a. split; [exact Ha|]. unfold blocked_arc. rewrite I. cbn [e_inc]. unfold fset. destruct (Nat.eqb_spec (arc_place a) p); [contradiction|exact B].
  - cbn [e_inc]. unfold fset. rewrite Nat.eqb_refl. reflexivity.
Qed.
Lemma process_dec_ok : forall b X p v s, good b -> covered b X s -> let s' := process_dec b p v s in grows s s' /\ covered b X s' /\ e_dec s' p = true /\ (e_low s' p <= v)%N.
Proof.
  intros b X p v s G C s'. unfold s', process_dec.
  assert (Lo : forall q, (fset (e_low s) p (N.min v (e_low s p)) q <= e_low s q)%N) by (intros q; unfold fset; destruct (Nat.eqb_spec q p) as [->|_]; lia).
  assert (Lp : (fset (e_low s) p (N.min v (e_low s p)) p <= v)%N) by (unfold fset; rewrite Nat.eqb_refl; lia).
  destruct (e_dec s p) eqn:E.
  - split; [constructor; cbn [e_inc e_dec e_low e_done e_q]; auto|]. split; [|split; [exact E|exact Lp]]. intros t L D. destruct (C t L D) as [H|[H|H]]; [left; exact H|right; left; exact H|right; right; exact H].
  - split; [|split; [|split; [|exact Lp]]].
    + constructor; cbn [e_inc e_dec e_low e_done e_q]; auto; [intros q Hq; unfold fset; destruct (Nat.eqb q p); auto|intros t Ht; apply in_or_app; left; exact Ht].
    + intros t L D. cbn [e_done] in D. destruct (C t L D) as [H|[(a & Ha & B)|H]]; [left; cbn [e_q]; apply in_or_app; left; exact H| |right; right; exact H].
      unfold blocked_arc in B. destruct (arc_inhib a) eqn:I; [|right; left; exists a; split; [exact Ha|]; unfold blocked_arc; rewrite I; exact B].
      destruct (Nat.eq_dec (arc_place a) p) as [Ep|Hp].
      * left. cbn [e_q]. apply in_or_app. right. apply filter_In. split; [apply (g_cons G); rewrite <- Ep; apply in_map; exact Ha|rewrite D; reflexivity].
      * right. left. exists a. split; [exact Ha|]. unfold blocked_arc. rewrite I. cbn [e_dec]. unfold fset. destruct (Nat.eqb_spec (arc_place a) p); [contradiction|exact B].
    + cbn [e_dec]. unfold fset. rewrite Nat.eqb_refl. reflexivity.
Qed.

(** ** The joint walk records all effects *)
Definition notes (s : efm) (pre post : list arc) : Prop :=
  (forall a, In a pre -> arc_inhib a = false -> (wt post (arc_place a) < arc_weight a)%N -> e_dec s (arc_place a) = true /\ (e_low s (arc_place a) <= wt post (arc_place a))%N) /\
  (forall o, In o post -> (wt pre (arc_place o) < arc_weight o)%N -> e_inc s (arc_place o) = true).
Lemma wt_after : forall a l p, srt (a :: l) -> p <> arc_place a -> wt (a :: l) p = wt l p.
Proof. intros a l p S H. rewrite wt_cons by exact S. destruct (Nat.eqb_spec (arc_place a) p); [congruence|reflexivity]. Qed.
Lemma wt_head : forall a l, srt (a :: l) -> wt (a :: l) (arc_place a) = if arc_inhib a then 0%N else arc_weight a.
Proof. intros a l S. rewrite wt_cons, Nat.eqb_refl by exact S. reflexivity. Qed.
Lemma wt_low : forall l p, srt l -> (forall q, In q (map arc_place l) -> p < q) -> wt l p = 0%N.
Proof. intros l p S H. apply wt_absent; [exact S|]. intros X. specialize (H p X). lia. Qed.
Lemma e_walk_ok : forall b X pre post s, good b -> srt pre -> srt post -> (forall a, In a pre -> arc_inhib a = false -> (0 < arc_weight a)%N) -> (forall o, In o post -> arc_inhib o = false /\ (0 < arc_weight o)%N) -> covered b X s ->
  let s' := e_walk b pre post s in grows s s' /\ covered b X s' /\ notes s' pre post.
Proof.
  intros b X pre. induction pre as [|a pre IHp]; intros post; induction post as [|o post IHo]; intros s G S1 S2 H1 H2 C; cbn [e_walk]; cbv zeta.
  - split; [apply grows_refl|]. split; [exact C|]. split; intros x [].
  - destruct (process_inc_ok (arc_place o) G C) as (Gr & C' & Ei). destruct (IHo _ G S1 (proj2 S2) H1 (fun x Hx => H2 x (or_intror Hx)) C') as (Gr' & C2 & N1 & N2).
    split; [eapply grows_trans; eauto|]. split; [exact C2|]. split; [intros x []|]. intros x [<-|Hx] Hw; [apply (gr_inc Gr'); exact Ei|apply N2; assumption].
  - set (s1 := if arc_inhib a then s else process_dec b (arc_place a) 0 s).
    assert (K : grows s s1 /\ covered b X s1 /\ (arc_inhib a = false -> e_dec s1 (arc_place a) = true /\ (e_low s1 (arc_place a) <= 0)%N)).
    { unfold s1. destruct (arc_inhib a); [split; [apply grows_refl|split; [exact C|discriminate]]|]. destruct (process_dec_ok (arc_place a) 0%N G C) as (Gr & C' & D & L). auto. }
    destruct K as (Gr & C1 & D). destruct (IHp [] s1 G (proj2 S1) I (fun x Hx => H1 x (or_intror Hx)) H2 C1) as (Gr' & C2 & N1 & N2).
    split; [eapply grows_trans; eauto|]. split; [exact C2|]. split; [|intros x []]. intros x [<-|Hx] Ix Hw; [|apply N1; assumption]. destruct (D Ix) as (D1 & D2). split; [apply (gr_dec Gr'); exact D1|].
    pose proof (gr_low Gr' (arc_place a)). cbn. lia.
  - pose proof S1 as (A1 & B1). pose proof S2 as (A2 & B2).
    destruct (Nat.ltb_spec (arc_place a) (arc_place o)) as [L|L]; [|destruct (Nat.ltb_spec (arc_place o) (arc_place a)) as [L'|L']].
    + set (s1 := if arc_inhib a then s else process_dec b (arc_place a) 0 s).
      assert (K : grows s s1 /\ covered b X s1 /\ (arc_inhib a = false -> e_dec s1 (arc_place a) = true /\ (e_low s1 (arc_place a) <= 0)%N)).
      { unfold s1. destruct (arc_inhib a); [split; [apply grows_refl|split; [exact C|discriminate]]|]. destruct (process_dec_ok (arc_place a) 0%N G C) as (Gr & C' & D & Lw). auto. }
      destruct K as (Gr & C1 & D). destruct (IHp (o :: post) s1 G B1 S2 (fun x Hx => H1 x (or_intror Hx)) H2 C1) as (Gr' & C2 & N1 & N2).
      assert (Pl : forall q, In q (map arc_place (o :: post)) -> arc_place a < q) by (intros q [<-|Hq]; [exact L|specialize (A2 _ Hq); lia]).
      split; [eapply grows_trans; eauto|]. split; [exact C2|]. split.
      * intros x [<-|Hx] Ix Hw; [|apply N1; assumption]. destruct (D Ix) as (D1 & D2). split; [apply (gr_dec Gr'); exact D1|]. pose proof (gr_low Gr' (arc_place a)). lia.
      * intros x Hx Hw. apply (N2 x Hx). rewrite wt_after in Hw; [exact Hw|exact S1|]. specialize (Pl _ (in_map arc_place _ _ Hx)). lia.
    + destruct (process_inc_ok (arc_place o) G C) as (Gr & C' & Ei). destruct (IHo _ G S1 B2 H1 (fun x Hx => H2 x (or_intror Hx)) C') as (Gr' & C2 & N1 & N2).
      assert (Pl : forall q, In q (map arc_place (a :: pre)) -> arc_place o < q) by (intros q [<-|Hq]; [exact L'|specialize (A1 _ Hq); lia]).
      split; [eapply grows_trans; eauto|]. split; [exact C2|]. split.
      * intros x Hx Ix Hw. rewrite wt_after in *; try exact S2; try (specialize (Pl _ (in_map arc_place _ _ Hx)); lia). apply N1; assumption.
      * intros x [<-|Hx] Hw; [apply (gr_inc Gr'); exact Ei|apply N2; assumption].
    + assert (Ep : arc_place a = arc_place o) by lia.
      set (s1 := if arc_inhib a then process_inc b (arc_place o) s else if (arc_weight o <? arc_weight a)%N then process_dec b (arc_place a) (arc_weight o) s else if (arc_weight a <? arc_weight o)%N then process_inc b (arc_place o) s else s).
      assert (K : grows s s1 /\ covered b X s1 /\ (arc_inhib a = false -> (arc_weight o < arc_weight a)%N -> e_dec s1 (arc_place a) = true /\ (e_low s1 (arc_place a) <= arc_weight o)%N) /\
        (((if arc_inhib a then 0 else arc_weight a) < arc_weight o)%N -> e_inc s1 (arc_place o) = true)).
      { unfold s1. destruct (arc_inhib a); [destruct (process_inc_ok (arc_place o) G C) as (Gr & C' & D); split; [exact Gr|]; split; [exact C'|]; split; [discriminate|auto]|].
        destruct (N.ltb_spec (arc_weight o) (arc_weight a)); [destruct (process_dec_ok (arc_place a) (arc_weight o) G C) as (Gr & C' & D & Lw); split; [exact Gr|]; split; [exact C'|]; split; [auto|lia]|].
        destruct (N.ltb_spec (arc_weight a) (arc_weight o)); [destruct (process_inc_ok (arc_place o) G C) as (Gr & C' & D); split; [exact Gr|]; split; [exact C'|]; split; [lia|auto]|].
        split; [apply grows_refl|]. split; [exact C|]. split; lia. }
      destruct K as (Gr & C1 & D1 & D2). destruct (IHp post s1 G B1 B2 (fun x Hx => H1 x (or_intror Hx)) (fun x Hx => H2 x (or_intror Hx)) C1) as (Gr' & C2 & N1 & N2).
      split; [eapply grows_trans; eauto|]. split; [exact C2|]. destruct (H2 o (or_introl eq_refl)) as (Io & Wo). split.
      * intros x [<-|Hx] Ix Hw.
        -- rewrite Ep, wt_head, Io in * by exact S2. destruct (D1 Ix Hw) as (D3 & D4). split; [apply (gr_dec Gr'); exact D3|]. pose proof (gr_low Gr' (arc_place o)). lia.
        -- assert (Hn : arc_place x <> arc_place o) by (specialize (A1 _ (in_map arc_place _ _ Hx)); lia). rewrite wt_after in * by (exact S2 || exact Hn). apply N1; assumption.
      * intros x [<-|Hx] Hw.
        -- rewrite <- Ep, wt_head in Hw by exact S1. apply (gr_inc Gr'). apply D2. exact Hw.
        -- assert (Hn : arc_place x <> arc_place a) by (specialize (A2 _ (in_map arc_place _ _ Hx)); lia). rewrite wt_after in Hw by (exact S1 || exact Hn). apply N2; assumption.
Qed.
Lemma notes_noted : forall b t s, good b -> notes s (bt_pre (tr_of b t)) (bt_post (tr_of b t)) -> forall p, noted s (atr_of (tr_of b t)) p.
Proof.
  intros b t s G (N1 & N2) p. unfold noted. cbn [atr_of a_in a_out]. split; intros H.
  - assert (Z : wt (bt_pre (tr_of b t)) p <> 0%N) by lia. destruct (@wt_in _ p (g_spre G t) Z) as (a & A & <- & Ia & Wa). rewrite Wa in H. apply (N1 a A Ia H).
  - assert (Z : wt (bt_post (tr_of b t)) p <> 0%N) by lia. destruct (@wt_in _ p (g_spost G t) Z) as (a & A & <- & Ia & Wa). rewrite Wa in H. apply (N2 a A H).
Qed.

(** ** The invariant of the fixed point *)
Definition arc_may (b : builder) (s : efm) (a : arc) : Prop :=
  if arc_inhib a then (init_at b (arc_place a) < arc_weight a)%N \/ e_dec s (arc_place a) = true
  else (arc_weight a <= init_at b (arc_place a))%N \/ e_inc s (arc_place a) = true.
Record finv (b : builder) (X : nat -> Prop) (s : efm) : Prop := {
  fi_cov : covered b X s;
  fi_low : forall p, (e_low s p <= init_at b p)%N;
  fi_note : forall t, e_done s t = true -> forall p, noted s (atr_of (tr_of b t)) p;
  fi_may : forall t, e_done s t = true -> forall a, In a (bt_pre (tr_of b t)) -> arc_may b s a }.
Lemma may_grows : forall b s s' a, grows s s' -> arc_may b s a -> arc_may b s' a.
Proof. intros b s s' a Gr H. unfold arc_may in *. destruct (arc_inhib a); (destruct H as [H|H]; [left; exact H|right]); [apply (gr_dec Gr)|apply (gr_inc Gr)]; exact H. Qed.
Lemma process_enabled_ok : forall b X t s, good b -> finv b X s -> (forall a, In a (bt_pre (tr_of b t)) -> arc_may b s a) -> finv b (fun u => X u /\ u <> t) (process_enabled b t s).
Proof.
  intros b X t s G [C Lo No Ma] M. unfold process_enabled. set (s1 := mkEfm (e_inc s) (e_dec s) (e_low s) (fset (e_done s) t true) (e_q s)).
  assert (C1 : covered b (fun u => X u /\ u <> t) s1).
  { intros u L D. cbn [s1 e_done] in D. unfold fset in D. destruct (Nat.eqb_spec u t) as [E|Hu]; [discriminate|]. destruct (C u L D) as [H|[H|H]]; [left; exact H|right; left; exact H|right; right; auto]. }
  destruct (@e_walk_ok b (fun u => X u /\ u <> t) (bt_pre (tr_of b t)) (bt_post (tr_of b t)) s1 G (g_spre G t) (g_spost G t)) as (Gr & C2 & Nt).
  { intros a Ha _. apply (g_pre G t a Ha). } { intros o Ho. destruct (g_post G t o Ho) as (_ & A & B). auto. } { exact C1. }
  set (s' := e_walk b (bt_pre (tr_of b t)) (bt_post (tr_of b t)) s1) in *. constructor.
  - exact C2.
  - intros p. pose proof (gr_low Gr p) as K. cbn [s1 e_low] in K. specialize (Lo p). lia.
  - intros u Du. rewrite (gr_done Gr) in Du. cbn [s1 e_done] in Du. unfold fset in Du. destruct (Nat.eqb_spec u t) as [Eu|Hu]; [subst u; apply notes_noted; assumption|]. intros p. apply (noted_grows Gr). apply (No u Du p).
  - intros u Du a Ha. rewrite (gr_done Gr) in Du. cbn [s1 e_done] in Du. unfold fset in Du. apply (@may_grows b _ _ a Gr). destruct (Nat.eqb_spec u t) as [Eu|Hu]; [subst u; apply M; exact Ha|apply (Ma u Du a Ha)].
Qed.
Lemma init_may : forall b s t, forallb (init_ok b) (bt_pre (tr_of b t)) = true -> forall a, In a (bt_pre (tr_of b t)) -> arc_may b s a.
Proof.
  intros b s t H a Ha. rewrite forallb_forall in H. specialize (H a Ha). unfold init_ok in H. unfold arc_may. destruct (arc_inhib a); destruct (N.leb_spec (arc_weight a) (init_at b (arc_place a))); cbn in H; try discriminate; left; assumption.
Qed.
Lemma maybe_may : forall b s t, forallb (maybe_ok b s) (bt_pre (tr_of b t)) = true -> forall a, In a (bt_pre (tr_of b t)) -> arc_may b s a.
Proof.
  intros b s t H a Ha. rewrite forallb_forall in H. specialize (H a Ha). unfold maybe_ok in H. apply andb_true_iff in H. destruct H as (H1 & H2). unfold arc_may. destruct (arc_inhib a).
  - cbn in H1. destruct (N.ltb_spec (init_at b (arc_place a)) (arc_weight a)); [left; assumption|right; exact H1].
  - cbn in H2. destruct (N.leb_spec (arc_weight a) (init_at b (arc_place a))); [left; assumption|right; exact H2].
Qed.
Lemma not_all : forall {A} (f : A -> bool) l, forallb f l = false -> exists x, In x l /\ f x = false.
Proof.
  intros A f. induction l as [|x l IH]; intros H; [discriminate|]. cbn in H. destruct (f x) eqn:E; [destruct (IH H) as (y & Hy & Ey); exists y; split; [right; exact Hy|exact Ey]|exists x; split; [left; reflexivity|exact E]].
Qed.
Definition starts (b : builder) (t : nat) : Prop := forallb (init_ok b) (bt_pre (tr_of b t)) = true.
Lemma e_starts_ok : forall b n k s, good b -> finv b (fun t => starts b t /\ k <= t < k + n) s -> finv b (fun _ => False) (fold_left (e_start b) (seq k n) s).
Proof.
  intros b. induction n as [|n IH]; intros k s G F; cbn [seq fold_left].
  - destruct F as [C Lo No Ma]. constructor; auto. intros t L D. destruct (C t L D) as [H|[H|(_ & H)]]; [left; exact H|right; left; exact H|lia].
  - apply IH; [exact G|]. unfold e_start. destruct (bt_skip (tr_of b k)) eqn:Sk; [|destruct (forallb (init_ok b) (bt_pre (tr_of b k))) eqn:E].
    + destruct F as [C Lo No Ma]. constructor; auto. intros t L D. destruct (C t L D) as [H|[H|(H & R)]]; [left; exact H|right; left; exact H|]. right. right. split; [exact H|].
      assert (t <> k) by (intros ->; apply live_spec in L; destruct L; congruence). lia.
    + pose proof (@process_enabled_ok b _ k s G F (@init_may b s k E)) as [C Lo No Ma]. constructor; auto. intros t L D. destruct (C t L D) as [H|[H|((H & R) & Hn)]]; [left; exact H|right; left; exact H|]. right. right. split; [exact H|lia].
    + destruct F as [C Lo No Ma]. constructor; auto. intros t L D. destruct (C t L D) as [H|[H|(H & R)]]; [left; exact H|right; left; exact H|]. right. right. split; [exact H|].
      assert (t <> k) by (intros ->; unfold starts in H; congruence). lia.
Qed.
Lemma e_init_ok : forall b, good b -> finv b (fun t => starts b t /\ 0 <= t < 0 + length (b_trans b)) (mkEfm (fun _ => false) (fun _ => false) (init_at b) (fun _ => false) []).
Proof.
  intros b G. constructor; cbn [e_low e_done]; try discriminate; [|intros p; lia]. intros t L _. cbn [e_q]. right. destruct (forallb (init_ok b) (bt_pre (tr_of b t))) eqn:E.
  - right. split; [exact E|]. apply live_spec in L. lia.
  - left. destruct (not_all _ _ E) as (a & Ha & Ea). exists a. split; [exact Ha|]. unfold init_ok in Ea. unfold blocked_arc. cbn [e_dec e_inc]. destruct (arc_inhib a); destruct (N.leb_spec (arc_weight a) (init_at b (arc_place a))); cbn in Ea; try discriminate; split; auto.
Qed.

(** ** The fixed point is reached *)
Definition todo (b : builder) (s : efm) : nat :=
  length (e_q s) + list_sum (map (fun p => if e_inc s p then 0 else length (bp_cons (pl_of b p))) (seq 0 (length (b_places b))))
  + list_sum (map (fun p => if e_dec s p then 0 else length (bp_cons (pl_of b p))) (seq 0 (length (b_places b)))).
Lemma sum_fset : forall (c : nat -> nat) f p l, NoDup l -> f p = false ->
  list_sum (map (fun q => if fset f p true q then 0 else c q) l) + (if existsb (Nat.eqb p) l then c p else 0) = list_sum (map (fun q => if f q then 0 else c q) l).
Proof.
  intros c f p. induction l as [|q l IH]; intros Nd Hp; [reflexivity|]. inversion Nd as [|x y N1 N2]; subst x y. specialize (IH N2 Hp).
  change (list_sum (map (fun q0 => if fset f p true q0 then 0 else c q0) (q :: l))) with ((if fset f p true q then 0 else c q) + list_sum (map (fun q0 => if fset f p true q0 then 0 else c q0) l)).
  change (list_sum (map (fun q0 => if f q0 then 0 else c q0) (q :: l))) with ((if f q then 0 else c q) + list_sum (map (fun q0 => if f q0 then 0 else c q0) l)).
  cbn [existsb]. unfold fset at 1. rewrite (Nat.eqb_sym q p). destruct (Nat.eqb_spec p q) as [E|E]; cbn [orb].
  - subst q. rewrite Hp. destruct (existsb (Nat.eqb p) l) eqn:Ex; [apply existsb_in in Ex; contradiction|]. lia.
  - destruct (f q); lia.
Qed.
Lemma cons_outside : forall b p, existsb (Nat.eqb p) (seq 0 (length (b_places b))) = false -> bp_cons (pl_of b p) = [].
Proof.
  intros b p H. destruct (le_lt_dec (length (b_places b)) p) as [L|L]; [unfold pl_of; rewrite nth_overflow by exact L; reflexivity|].
  assert (X : existsb (Nat.eqb p) (seq 0 (length (b_places b))) = true) by (apply existsb_in, in_seq; lia). congruence.
Qed.
Lemma filter_short : forall {A} (f : A -> bool) l, length (filter f l) <= length l.
Proof. intros A f. induction l as [|x l IH]; [reflexivity|]. cbn. destruct (f x); cbn; lia. Qed.
Lemma process_inc_todo : forall b p s, todo b (process_inc b p s) <= todo b s.
Proof.
  intros b p s. unfold process_inc. destruct (e_inc s p) eqn:E; [reflexivity|]. unfold todo. cbn [e_q e_inc e_dec]. rewrite app_length.
  pose proof (@sum_fset (fun q => length (bp_cons (pl_of b q))) (e_inc s) p (seq 0 (length (b_places b))) (seq_NoDup _ _) E) as K. cbv beta in K.
  pose proof (filter_short (fun t => negb (e_done s t)) (bp_cons (pl_of b p))) as F. destruct (existsb (Nat.eqb p) (seq 0 (length (b_places b)))) eqn:Ex; [lia|]. rewrite (cons_outside _ _ Ex) in *. cbn [filter length] in *. lia.
Qed.
Lemma process_dec_todo : forall b p v s, todo b (process_dec b p v s) <= todo b s.
Proof.
  intros b p v s. unfold process_dec. destruct (e_dec s p) eqn:E; [reflexivity|]. unfold todo. cbn [e_q e_inc e_dec]. rewrite app_length.
  pose proof (@sum_fset (fun q => length (bp_cons (pl_of b q))) (e_dec s) p (seq 0 (length (b_places b))) (seq_NoDup _ _) E) as K. cbv beta in K.
  pose proof (filter_short (fun t => negb (e_done s t)) (bp_cons (pl_of b p))) as F. destruct (existsb (Nat.eqb p) (seq 0 (length (b_places b)))) eqn:Ex; [lia|]. rewrite (cons_outside _ _ Ex) in *. cbn [filter length] in *. lia.
Qed.
Lemma e_walk_todo : forall b pre post s, todo b (e_walk b pre post s) <= todo b s.
Proof.
  intros b pre. induction pre as [|a pre IHp]; intros post; induction post as [|o post IHo]; intros s; cbn [e_walk].
  - reflexivity.
  - etransitivity; [apply IHo|apply process_inc_todo].
  - etransitivity; [apply IHp|]. destruct (arc_inhib a); [reflexivity|apply process_dec_todo].
  - destruct (arc_place a <? arc_place o); [|destruct (arc_place o <? arc_place a)].
    + etransitivity; [apply IHp|]. destruct (arc_inhib a); [reflexivity|apply process_dec_todo].
    + etransitivity; [apply IHo|apply process_inc_todo].
    + etransitivity; [apply IHp|]. destruct (arc_inhib a); [apply process_inc_todo|]. destruct (arc_weight o <? arc_weight a)%N; [apply process_dec_todo|]. destruct (arc_weight a <? arc_weight o)%N; [apply process_inc_todo|reflexivity].
Qed.
Lemma e_starts_todo : forall b l s, todo b (fold_left (e_start b) l s) <= todo b s.
Proof.
  intros b. induction l as [|t l IH]; intros s; cbn [fold_left]; [reflexivity|]. etransitivity; [apply IH|]. unfold e_start. destruct (bt_skip (tr_of b t)); [reflexivity|]. destruct (forallb (init_ok b) (bt_pre (tr_of b t))); [|reflexivity].
  unfold process_enabled. etransitivity; [apply e_walk_todo|]. unfold todo. cbn [e_q e_inc e_dec]. reflexivity.
Qed.
Lemma e_loop_ok : forall b fuel s, good b -> finv b (fun _ => False) s -> todo b s < fuel -> exists s', e_loop b fuel s = Ok s' /\ finv b (fun _ => False) s' /\ e_q s' = [].
Proof.
  intros b. induction fuel as [|f IH]; intros s G F Hf; [lia|]. cbn [e_loop]. destruct (e_q s) as [|t q] eqn:Eq; [exists s; auto|].
  set (s' := mkEfm (e_inc s) (e_dec s) (e_low s) (e_done s) q).
  assert (Td : todo b s = S (todo b s')) by (unfold todo; rewrite Eq; reflexivity).
  assert (F' : finv b (fun u => u = t) s').
  { destruct F as [C Lo No Ma]. constructor; auto. intros u L D. destruct (C u L D) as [H|[H|[]]]; [|right; left; exact H]. rewrite Eq in H. destruct H as [<-|H]; [right; right; reflexivity|left; exact H]. }
  assert (Weak : forall X, (e_done s t = true \/ blocked b s t) -> finv b (fun u => u = t) X -> e_inc X = e_inc s -> e_dec X = e_dec s -> e_done X = e_done s -> finv b (fun _ => False) X).
  { intros X Hb [C Lo No Ma] E1 E2 E3. constructor; auto. intros u L D. destruct (C u L D) as [H|[H|E]]; [left; exact H|right; left; exact H|]. subst u. destruct Hb as [Hb|(a & Ha & Hb)]; [congruence|].
    right. left. exists a. split; [exact Ha|]. unfold blocked_arc in *. rewrite E1, E2. exact Hb. }
  destruct (e_done s t) eqn:D; [|destruct (forallb (maybe_ok b s) (bt_pre (tr_of b t))) eqn:M].
  - apply IH; [exact G| |lia]. apply Weak; auto.
  - apply IH; [exact G| |].
    + pose proof (@process_enabled_ok b _ t s' G F') as K. destruct K as [C Lo No Ma]; [intros a Ha; apply (@maybe_may b s t M a Ha)|]. constructor; auto. intros u L Du. destruct (C u L Du) as [H|[H|(E & H)]]; [left; exact H|right; left; exact H|contradiction].
    + unfold process_enabled. pose proof (e_walk_todo b (bt_pre (tr_of b t)) (bt_post (tr_of b t)) (mkEfm (e_inc s') (e_dec s') (e_low s') (fset (e_done s') t true) (e_q s'))) as K.
      assert (Q : todo b (mkEfm (e_inc s') (e_dec s') (e_low s') (fset (e_done s') t true) (e_q s')) = todo b s') by reflexivity. lia.
  - apply IH; [exact G| |lia]. apply Weak; auto. right. destruct (not_all _ _ M) as (a & Ha & Ea). exists a. split; [exact Ha|]. unfold maybe_ok in Ea. unfold blocked_arc.
    destruct (arc_inhib a); cbn in Ea; [rewrite andb_true_r in Ea|]; apply orb_false_iff in Ea; destruct Ea as (E1 & E2); (split; [|exact E2]); [apply N.ltb_ge in E1|apply N.leb_gt in E1]; exact E1.
Qed.

(** ** Bounds of the reachable markings *)
Definition within (s : efm) (i m : mk) : Prop :=
  forall p, (e_low s p <= m p)%N /\ (e_inc s p = false -> (m p <= i p)%N) /\ (e_dec s p = false -> (i p <= m p)%N).
Lemma within_step : forall s i m m1 x, within s i m -> (forall p, noted s x p) -> aen x m -> ext m1 (afire x m) -> within s i m1.
Proof.
  intros s i m m1 x W No En X p. destruct (W p) as (W1 & W2 & W3). destruct (No p) as (N1 & N2). destruct (En p) as (E1 & _). rewrite (X p). unfold afire.
  split; [|split; intros H; rewrite H in *].
  - destruct (N.lt_ge_cases (a_out x p) (a_in x p)) as [H|H]; [destruct (N1 H); lia|lia].
  - specialize (W2 eq_refl). destruct (N.lt_ge_cases (a_in x p) (a_out x p)) as [H'|H']; [specialize (N2 H'); discriminate|lia].
  - specialize (W3 eq_refl). destruct (N.lt_ge_cases (a_out x p) (a_in x p)) as [H'|H']; [destruct (N1 H'); discriminate|lia].
Qed.
Record aclosed (s : efm) (n : anet) : Prop := {
  ac_low : forall p, (e_low s p <= an_init n p)%N;
  ac_note : forall i x p, an_tr n i = Some x -> noted s x p;
  ac_may : forall i x p, an_tr n i = Some x -> ((a_in x p <= an_init n p)%N \/ e_inc s p = true) /\ (forall w, a_inh x p = Some w -> (an_init n p < w)%N \/ e_dec s p = true) }.
Lemma within_init : forall s n m, (forall p, (e_low s p <= an_init n p)%N) -> ext m (an_init n) -> within s (an_init n) m.
Proof. intros s n m H E p. rewrite (E p). split; [apply H|]. split; lia. Qed.
Lemma aclosed_within : forall s n m, aclosed s n -> areach n m -> within s (an_init n) m.
Proof.
  intros s n m [A1 A2 A3]. apply areach_ind; [intros m0 E; apply within_init; assumption|]. intros m0 i t m1 _ W Ht En X. eapply within_step; eauto.
Qed.
(** transitions that lose arcs but keep their effect on the bounds *)
Definition lighter (x x' : atr) : Prop := forall q,
  (a_in x' q = a_in x q /\ a_out x' q = a_out x q /\ a_inh x' q = a_inh x q) \/
  (a_in x' q = 0%N /\ a_inh x' q = None /\ (0 < a_out x' q -> a_in x q < a_out x q)%N).
Lemma lighter_refl : forall x, lighter x x.
Proof. intros x q. left. auto. Qed.
Lemma lighter_acut : forall p x x', aeq (acut p x) x' -> lighter x x'.
Proof. intros p x x' (E1 & E2 & E3) q. specialize (E1 q). specialize (E2 q). specialize (E3 q). cbn [acut a_in a_out a_inh] in *. destruct (Nat.eqb q p); [right; rewrite <- E1, <- E2, <- E3; split; [reflexivity|split; [reflexivity|lia]]|left; auto]. Qed.
Lemma lighter_without : forall p x x', aeq (without p x) x' -> lighter x x'.
Proof. intros p x x' (E1 & E2 & E3) q. specialize (E1 q). specialize (E2 q). specialize (E3 q). cbn [without a_in a_out a_inh] in *. destruct (Nat.eqb q p); [right; rewrite <- E1, <- E2, <- E3; split; [reflexivity|split; [reflexivity|lia]]|left; auto]. Qed.
Lemma aclosed_lighter : forall s n n', aclosed s n -> ext (an_init n) (an_init n') -> (forall i x', an_tr n' i = Some x' -> exists x, an_tr n i = Some x /\ lighter x x') -> aclosed s n'.
Proof.
  intros s n n' [A1 A2 A3] E H. constructor.
  - intros p. rewrite <- (E p). apply A1.
  - intros i x' p Hx. destruct (H i x' Hx) as (x & Hx0 & L). destruct (A2 i x p Hx0) as (N1 & N2). destruct (L p) as [(L1 & L2 & L3)|(L1 & L2 & L3)]; split; rewrite L1, ?L2; try exact N1; try exact N2; [lia|]. intros Q. apply N2. apply L3. exact Q.
  - intros i x' p Hx. destruct (H i x' Hx) as (x & Hx0 & L). rewrite <- (E p). destruct (L p) as [(L1 & L2 & L3)|(L1 & L2 & L3)]; rewrite L1, ?L2, ?L3; [apply (A3 i x p Hx0)|]. split; [left; lia|discriminate].
Qed.

(** ** Removing the dead transitions *)
Lemma drop_unless_ok : forall seen l b, good b -> (forall t, In t l -> t < length (b_trans b)) ->
  exists b', fold_res (drop_unless seen) l b = Ok b' /\ good b' /\ frame b b' /\ b_init b' = b_init b /\ same_flags b b' /\
    (forall u, tr_of b' u = if existsb (Nat.eqb u) l && negb (bt_skip (tr_of b u)) && negb (seen u) then gone (tr_of b u) else tr_of b u).
Proof.
  intros seen. induction l as [|t l IH]; intros b G Hl.
  - exists b. split; [reflexivity|]. split; [exact G|]. split; [apply frame_refl|]. split; [reflexivity|]. split; [apply same_flags_refl|reflexivity].
  - cbn [fold_res]. unfold drop_unless at 1. destruct (bt_skip (tr_of b t)) eqn:Sk; [|destruct (seen t) eqn:D]; cbn [negb andb bind].
    1,2: destruct (IH b G (fun u Hu => Hl u (or_intror Hu))) as (b' & E & G' & F & I & Fl & T); exists b'; split; [exact E|]; split; [exact G'|]; split; [exact F|]; split; [exact I|]; split; [exact Fl|];
      intros u; rewrite T; cbn [existsb]; destruct (Nat.eqb_spec u t) as [Eu|Hu]; cbn [orb andb]; [subst u; rewrite ?Sk, ?D; cbn [negb]; rewrite ?andb_false_r; reflexivity|reflexivity].
    destruct (skip_transition_ok G (Hl t (or_introl eq_refl)) Sk) as (b1 & E1 & G1 & F1 & I1 & Fl1 & T1). rewrite E1. cbn [bind].
    destruct (IH b1 G1) as (b' & E & G' & F & I & Fl & T); [intros u Hu; rewrite (f_nt F1); apply Hl; right; exact Hu|]. exists b'. split; [exact E|]. split; [exact G'|]. split; [eapply frame_trans; eauto|]. split; [congruence|]. split; [eapply same_flags_trans; eauto|].
    intros u. rewrite T, T1. cbn [existsb]. destruct (Nat.eqb_spec u t) as [Eu|Hu]; cbn [orb]; [|reflexivity]. subst u. cbn [gone bt_skip negb]. rewrite andb_false_r, Sk, D. reflexivity.
Qed.
(** ** One sound step that keeps the bounds *)
Definition estep (inq : nat -> bool) (s : efm) (b b' : builder) : Prop :=
  good b' /\ same_views inq b b' /\ aclosed s (anet_of b') /\ frame b b' /\ b_init b' = b_init b.
Lemma estep_trans : forall inq s a b c, estep inq s a b -> estep inq s b c -> estep inq s a c.
Proof.
  intros inq s a b c (A1 & A2 & A3 & A4 & A5) (B1 & B2 & B3 & B4 & B5). split; [exact B1|]. split; [eapply same_views_trans; eauto|]. split; [exact B3|]. split; [eapply frame_trans; eauto|congruence].
Qed.
Lemma estep_refl : forall inq s b, good b -> aclosed s (anet_of b) -> estep inq s b b.
Proof. intros inq s b G A. split; [exact G|]. split; [apply same_views_refl|]. split; [exact A|]. split; [apply frame_refl|reflexivity]. Qed.
Lemma init_same : forall b b', b_init b' = b_init b -> ext (an_init (anet_of b)) (an_init (anet_of b')).
Proof. intros b b' I q. cbn [anet_of an_init]. unfold init_at. rewrite I. reflexivity. Qed.
(** a transition that is never enabled is removed *)
Lemma estep_gone : forall inq s b t, good b -> aclosed s (anet_of b) -> live b t = true -> (forall m, areach (anet_of b) m -> ~ aen (atr_of (tr_of b t)) m) ->
  exists b', skip_transition b t = Ok b' /\ estep inq s b b' /\ same_flags b b' /\ (forall p u, In u (bp_cons (pl_of b' p)) <-> In u (bp_cons (pl_of b p)) /\ u <> t).
Proof.
  intros inq s b t G A L Dead. pose proof L as L'. apply live_spec in L'. destruct L' as (L1 & L2). destruct (skip_transition_ok G L1 L2) as (b' & E & G' & F & I & Fl & T). exists b'. split; [exact E|].
  pose proof (@anet_skip_t b b' t F T) as Tr. split; [|split; [exact Fl|]].
  - split; [exact G'|]. split; [|split; [|split; [exact F|exact I]]].
    + apply same_views_intro; [exact G|exact G'|]. apply drop_dead; [apply init_same; exact I| |].
      * intros i x Hx. rewrite Tr in Hx. destruct (Nat.eqb i t); [discriminate|exact Hx].
      * intros m i x R Hx En. rewrite Tr. destruct (Nat.eqb_spec i t) as [Ei|_]; [|exact Hx]. subst i. apply live_tr in Hx. destruct Hx as (-> & _). destruct (Dead m R En).
    + apply (@aclosed_lighter s (anet_of b)); [exact A|apply init_same; exact I|]. intros i x Hx. rewrite Tr in Hx. destruct (Nat.eqb i t); [discriminate|]. exists x. split; [exact Hx|apply lighter_refl].
  - intros p u. rewrite (g_cons G'), T, (g_cons G). destruct (Nat.eqb_spec u t) as [Eu|Hu]; [subst u; cbn; tauto|tauto].
Qed.
(** the arcs of one transition at a place are replaced by their joint effect *)
Lemma estep_cut : forall inq s b b' p t, good b -> aclosed s (anet_of b) -> good b' -> frame b b' -> b_init b' = b_init b ->
  (forall u, u <> t -> tr_of b' u = tr_of b u) -> bt_skip (tr_of b' t) = bt_skip (tr_of b t) -> aeq (acut p (atr_of (tr_of b t))) (atr_of (tr_of b' t)) ->
  (a_in (atr_of (tr_of b t)) p <= a_out (atr_of (tr_of b t)) p)%N ->
  (forall m, areach (anet_of b) m -> (a_in (atr_of (tr_of b t)) p <= m p)%N /\ (forall w, a_inh (atr_of (tr_of b t)) p = Some w -> (m p < w)%N)) ->
  estep inq s b b'.
Proof.
  intros inq s b b' p t G A G' F I T Sk Aq Io En.
  assert (L : forall i, live b' i = live b i) by (intros i; unfold live; rewrite (f_nt F); destruct (Nat.eq_dec i t) as [->|Hi]; [rewrite Sk; reflexivity|rewrite (T i Hi); reflexivity]).
  split; [exact G'|]. split; [|split; [|split; [exact F|exact I]]].
  - apply same_views_intro; [exact G|exact G'|]. apply rework; [apply init_same; exact I| |].
    + intros i x Hx. apply live_tr in Hx. destruct Hx as (_ & Li). rewrite L in Li. exists (atr_of (tr_of b i)). apply tr_live. exact Li.
    + intros i x m Hx R. apply live_tr in Hx. destruct Hx as (-> & Li). cbn [anet_of an_tr]. rewrite L, Li. destruct (Nat.eq_dec i t) as [Ei|Hi].
      * subst i. destruct (En m R) as (E1 & E2). split; [eapply acut_en; eauto|apply (acut_fire Aq Io)].
      * rewrite (T i Hi). split; [tauto|intros _; apply ext_refl].
  - apply (@aclosed_lighter s (anet_of b)); [exact A|apply init_same; exact I|]. intros i x Hx. apply live_tr in Hx. destruct Hx as (-> & Li). rewrite L in Li. exists (atr_of (tr_of b i)). split; [apply tr_live; exact Li|].
    destruct (Nat.eq_dec i t) as [Ei|Hi]; [subst i; eapply lighter_acut; exact Aq|rewrite (T i Hi); apply lighter_refl].
Qed.

Lemma e_arc_ok : forall inq s b ok p t, good b -> aclosed s (anet_of b) -> In t (bp_cons (pl_of b p)) ->
  exists b' ok', e_arc s p (b, ok) t = Ok (b', ok') /\ estep inq s b b' /\ same_flags b b' /\
    ((ok' = ok /\ forall u, In u (bp_cons (pl_of b' p)) <-> In u (bp_cons (pl_of b p)) /\ u <> t) \/ (ok' = false /\ b' = b)).
Proof.
  intros inq s b ok p t G A Hin. unfold e_arc. destruct (cons_arc p t G Hin) as (a & Ea & Ha & Hp). rewrite Ea. cbn [some bind].
  assert (L : live b t = true) by (apply (@arc_live b t a G); left; exact Ha).
  assert (Keep : exists b' ok', Ok (b, false) = Ok (b', ok') /\ estep inq s b b' /\ same_flags b b' /\
    ((ok' = ok /\ forall u, In u (bp_cons (pl_of b' p)) <-> In u (bp_cons (pl_of b p)) /\ u <> t) \/ (ok' = false /\ b' = b))).
  { exists b, false. split; [reflexivity|]. split; [apply estep_refl; assumption|]. split; [apply same_flags_refl|right; auto]. }
  assert (Gone : (forall m, areach (anet_of b) m -> ~ aen (atr_of (tr_of b t)) m) -> exists b' ok', (b' <- skip_transition b t ;; Ok (b', ok)) = Ok (b', ok') /\ estep inq s b b' /\ same_flags b b' /\
    ((ok' = ok /\ forall u, In u (bp_cons (pl_of b' p)) <-> In u (bp_cons (pl_of b p)) /\ u <> t) \/ (ok' = false /\ b' = b))).
  { intros D. destruct (@estep_gone inq s b t G A L D) as (b' & E & St & Fl & C). rewrite E. cbn [bind]. exists b', ok. split; [reflexivity|]. split; [exact St|]. split; [exact Fl|]. left. split; [reflexivity|apply C]. }
  assert (Ai : a_in (atr_of (tr_of b t)) p = if arc_inhib a then 0%N else arc_weight a) by (rewrite a_in_of, Ea; reflexivity).
  assert (Ah : a_inh (atr_of (tr_of b t)) p = if arc_inhib a then Some (arc_weight a) else None) by (cbn [atr_of a_inh]; unfold ih; unfold in_arc in Ea; rewrite Ea; reflexivity).
  assert (W : forall m, areach (anet_of b) m -> within s (init_at b) m) by (intros m R; apply (aclosed_within A R)).
  destruct (arc_inhib a) eqn:Ia.
  - destruct (N.leb_spec (arc_weight a) (e_low s p)) as [Lw|Lw].
    + apply Gone. intros m R En. destruct (En p) as (_ & E2). specialize (E2 _ Ah). destruct (W m R p) as (W1 & _). lia.
    + destruct (negb (e_inc s p) && (init_at b p <? arc_weight a)%N) eqn:C; [|exact Keep]. apply andb_true_iff in C. destruct C as (C1 & C2). apply negb_true_iff in C1. apply N.ltb_lt in C2.
      destruct (@skip_in_arc_ok b p t G Hin) as (b' & E & G' & F & I & Fl & T & P & _ & Co). rewrite E. cbn [bind]. exists b', ok. split; [reflexivity|]. split; [|split; [exact Fl|left; split; [reflexivity|exact Co]]].
      apply (@estep_cut inq s b b' p t); try assumption.
      * intros u Hu. rewrite T. destruct (Nat.eqb_spec u t); [contradiction|reflexivity].
      * rewrite T, Nat.eqb_refl. reflexivity.
      * rewrite T, Nat.eqb_refl. apply (@del_acut b p t a G Ea Ia).
      * rewrite Ai. lia.
      * intros m R. rewrite Ai, Ah. split; [lia|]. intros w [= <-]. destruct (W m R p) as (_ & W2 & _). specialize (W2 C1). lia.
  - destruct ((init_at b p <? arc_weight a)%N && negb (e_inc s p)) eqn:C.
    + apply Gone. apply andb_true_iff in C. destruct C as (C1 & C2). apply negb_true_iff in C2. apply N.ltb_lt in C1. intros m R En. destruct (En p) as (E1 & _). rewrite Ai in E1. destruct (W m R p) as (_ & W2 & _). specialize (W2 C2). lia.
    + destruct (N.ltb_spec (e_low s p) (arc_weight a)) as [Lw|Lw]; [exact Keep|]. pose proof (ac_note A _ p (tr_live _ _ L)) as (N1 & _). destruct (g_pre G t a Ha) as (_ & Wa & _).
      assert (Io : (a_in (atr_of (tr_of b t)) p <= a_out (atr_of (tr_of b t)) p)%N).
      { destruct (N.lt_ge_cases (a_out (atr_of (tr_of b t)) p) (a_in (atr_of (tr_of b t)) p)) as [H|H]; [|exact H]. destruct (N1 H) as (_ & N3). rewrite Ai in *. lia. }
      destruct (out_arc b t p) as [o|] eqn:Eo; [|rewrite Ai, (a_out_of t p G), Eo in Io; lia].
      assert (Wo : (arc_weight a <= arc_weight o)%N) by (rewrite Ai, (a_out_of t p G), Eo in Io; exact Io).
      destruct (@cut_arc_ok b p t a o G Ea Eo Wo) as (b' & E & G' & F & I & Fl & T & P & Co). rewrite E. cbn [bind]. exists b', ok. split; [reflexivity|]. split; [|split; [exact Fl|left; split; [reflexivity|exact Co]]].
      apply (@estep_cut inq s b b' p t); try assumption.
      * intros u Hu. rewrite T. destruct (Nat.eqb_spec u t); [contradiction|reflexivity].
      * rewrite T, Nat.eqb_refl. unfold cut_tr. unfold in_arc in Ea. unfold out_arc in Eo. rewrite Ea, Eo. reflexivity.
      * rewrite T, Nat.eqb_refl. apply (@cut_acut b p t a G Ea Ia). exists o. auto.
      * intros m R. rewrite Ai, Ah. split; [|discriminate]. destruct (W m R p) as (W1 & _). lia.
Qed.
Lemma e_arcs_ok : forall inq s p l b ok, good b -> aclosed s (anet_of b) -> NoDup l -> (forall t, In t l -> In t (bp_cons (pl_of b p))) ->
  exists b' ok', fold_res (e_arc s p) l (b, ok) = Ok (b', ok') /\ estep inq s b b' /\ same_flags b b' /\
    (ok' = true -> ok = true /\ forall u, In u (bp_cons (pl_of b' p)) -> In u (bp_cons (pl_of b p)) /\ ~ In u l).
Proof.
  intros inq s p. induction l as [|t l IH]; intros b ok G A Nd Hl.
  - exists b, ok. split; [reflexivity|]. split; [apply estep_refl; assumption|]. split; [apply same_flags_refl|]. intros H. split; [exact H|]. intros u Hu. split; [exact Hu|intros []].
  - inversion Nd as [|x y N1 N2]; subst x y. cbn [fold_res]. destruct (@e_arc_ok inq s b ok p t G A (Hl t (or_introl eq_refl))) as (b1 & ok1 & E1 & St1 & Fl1 & K1). rewrite E1. cbn [bind]. pose proof St1 as (G1 & _ & A1 & _).
    destruct (IH b1 ok1 G1 A1 N2) as (b' & ok' & E & St & Fl & K).
    { intros u Hu. destruct K1 as [(_ & C)|(_ & ->)]; [apply C; split; [apply Hl; right; exact Hu|intros ->; contradiction]|apply Hl; right; exact Hu]. }
    exists b', ok'. split; [exact E|]. split; [eapply estep_trans; eauto|]. split; [eapply same_flags_trans; eauto|]. intros H. destruct (K H) as (K2 & K3). destruct K1 as [(-> & C)|(-> & _)]; [|discriminate].
    split; [exact K2|]. intros u Hu. destruct (K3 u Hu) as (H1 & H2). apply C in H1. destruct H1 as (H1 & H3). split; [exact H1|]. intros [H4|H4]; [congruence|contradiction].
Qed.

(** ** Removing and detaching a place *)
Lemma estep_place : forall inq s b p, good b -> aclosed s (anet_of b) -> bp_skip (pl_of b p) = false -> inq p = false ->
  (forall m t x, areach (anet_of b) m -> an_tr (anet_of b) t = Some x -> aen (without p x) m -> aen x m) ->
  exists b', skip_place b p = Ok b' /\ estep inq s b b' /\ (forall q, q <> p -> bp_skip (pl_of b' q) = bp_skip (pl_of b q)).
Proof.
  intros inq s b p G A Sk Q H. destruct (skip_place_ok p G Sk) as (b' & E & G' & F & I & P & _ & _ & T). exists b'. split; [exact E|]. split; [|intros q Hq; rewrite (P q Hq); reflexivity].
  pose proof (@skip_place_drop inq b p G Sk Q H) as R. rewrite E in R. destruct R as (_ & V). split; [exact G'|]. split; [exact V|]. split; [|split; [exact F|exact I]].
  destruct (@anet_skip_p b b' p G F T) as (B & _). apply (@aclosed_lighter s (anet_of b)); [exact A|apply init_same; exact I|]. intros i x' Hx. destruct (B i x' Hx) as (x & Hx0 & Aq). exists x. split; [exact Hx0|eapply lighter_without; exact Aq].
Qed.
Lemma upd_upd : forall {X} (l : list X) i x y, upd (upd l i x) i y = upd l i y.
Proof. intros X. induction l as [|h l IH]; intros [|i] x y; cbn; try reflexivity. rewrite IH. reflexivity. Qed.
Lemma detach_ok : forall b p, good b -> bp_skip (pl_of b p) = false ->
  let b' := detach_place b p in good b' /\ frame b b' /\ b_init b' = b_init b /\ (forall u, tr_of b' u = noplace p (tr_of b u)) /\ (forall q, bp_skip (pl_of b' q) = bp_skip (pl_of b q)).
Proof.
  intros b p G Sk b'. destruct (skip_place_ok p G Sk) as (b1 & E & G1 & F & I & P & Pp & Pi & T). assert (Rp : p < length (b_places b1)) by (rewrite (f_np F); apply pl_range; exact Sk).
  assert (Eb : b' = set_pl b1 p (mkBP [] [] false (bp_inhib (pl_of b p)))).
  { unfold skip_place in E. rewrite Sk in E. injection E as <-. unfold b', detach_place. rewrite Sk. unfold set_pl. cbn [b_pnames b_tnames b_trans b_places b_init]. rewrite upd_upd. reflexivity. }
  assert (C0 : bp_cons (pl_of b1 p) = [] /\ bp_prod (pl_of b1 p) = []).
  { unfold skip_place in E. rewrite Sk in E. injection E as <-. assert (R : p < length (b_places (fold_left (rm_post p) (bp_prod (pl_of b p)) (fold_left (rm_pre p) (bp_cons (pl_of b p)) b)))) by (unfold set_pl in Rp; cbn [b_places] in Rp; rewrite upd_length in Rp; exact Rp).
    rewrite pl_set by exact R. rewrite Nat.eqb_refl. split; reflexivity. }
  destruct C0 as (C1 & C2). set (x := mkBP [] [] false (bp_inhib (pl_of b p))) in *.
  assert (Pl : forall q, pl_of b' q = if Nat.eqb q p then x else pl_of b1 q) by (intros q; rewrite Eb; apply pl_set; exact Rp).
  assert (Tr : forall u, tr_of b' u = tr_of b1 u) by (intros u; rewrite Eb; reflexivity).
  assert (NoP : forall t, ~ In p (map arc_place (bt_pre (tr_of b1 t))) /\ ~ In p (map arc_place (bt_post (tr_of b1 t)))).
  { intros t. split; intros H; [apply (g_cons G1) in H; rewrite C1 in H|apply (g_prod G1) in H; rewrite C2 in H]; exact H. }
  assert (F' : frame b1 b') by (rewrite Eb; apply frame_set_pl).
  split; [|split; [eapply frame_trans; eauto|split; [rewrite Eb; exact I|split; [intros u; rewrite Tr; apply T|]]]].
  - eapply good_intro; [exact G1|exact F'|rewrite Eb; reflexivity| | | | | | |].
    + intros t. rewrite Tr. apply (g_skip G1).
    + intros t a Ha. rewrite Tr in Ha. rewrite Tr. rewrite Pl. destruct (Nat.eqb_spec (arc_place a) p) as [Ep|_]; [exfalso; apply (proj1 (NoP t)); rewrite <- Ep; apply in_map; exact Ha|apply (g_pre G1 t a Ha)].
    + intros t a Ha. rewrite Tr in Ha. rewrite Pl. destruct (Nat.eqb_spec (arc_place a) p) as [Ep|_]; [exfalso; apply (proj2 (NoP t)); rewrite <- Ep; apply in_map; exact Ha|apply (g_post G1 t a Ha)].
    + intros t. rewrite Tr. split; [apply (g_spre G1)|apply (g_spost G1)].
    + intros q. rewrite Pl. destruct (Nat.eqb q p); [split; exact Logic.I|split; [apply (g_scons G1)|apply (g_sprod G1)]].
    + intros q t. rewrite Pl, Tr. destruct (Nat.eqb_spec q p) as [->|_]; [cbn [x bp_cons]; split; [intros []|intros H; destruct (proj1 (NoP t) H)]|apply (g_cons G1)].
    + intros q t. rewrite Pl, Tr. destruct (Nat.eqb_spec q p) as [->|_]; [cbn [x bp_prod]; split; [intros []|intros H; destruct (proj2 (NoP t) H)]|apply (g_prod G1)].
  - intros q. rewrite Pl. destruct (Nat.eqb_spec q p) as [->|Hq]; [symmetry; exact Sk|rewrite (P q Hq); reflexivity].
Qed.
Lemma e_place_ok : forall inq s b p, good b -> aclosed s (anet_of b) -> exists b', e_place inq s b p = Ok b' /\ estep inq s b b'.
Proof.
  intros inq s b p G A. unfold e_place. destruct (bp_skip (pl_of b p)) eqn:Sk; [exists b; split; [reflexivity|apply estep_refl; assumption]|].
  destruct (negb (e_inc s p) && negb (e_dec s p)) eqn:Fix.
  - apply andb_true_iff in Fix. destruct Fix as (Fi & Fd). apply negb_true_iff in Fi, Fd.
    assert (Const : forall t x, an_tr (anet_of b) t = Some x -> a_in x p = a_out x p /\ forall m, areach (anet_of b) m -> (a_in x p <= m p)%N /\ (forall w, a_inh x p = Some w -> (m p < w)%N)).
    { intros t x Hx. destruct (ac_note A t p Hx) as (N1 & N2). split.
      - destruct (N.lt_trichotomy (a_in x p) (a_out x p)) as [H|[H|H]]; [specialize (N2 H); congruence|exact H|destruct (N1 H); congruence].
      - intros m R. destruct (aclosed_within A R p) as (_ & W2 & W3). specialize (W2 Fi). specialize (W3 Fd). destruct (ac_may A t p Hx) as ([M1|M1] & M2); [|congruence]. split; [lia|]. intros w Hw. destruct (M2 w Hw) as [M3|M3]; [lia|congruence]. }
    destruct (inq p) eqn:Q.
    + exists (detach_place b p). split; [reflexivity|]. destruct (detach_ok p G Sk) as (G' & F & I & T & Pl). set (b' := detach_place b p) in *. destruct (@anet_skip_p b b' p G F T) as (B1 & B2).
      split; [exact G'|]. split; [|split; [|split; [exact F|exact I]]].
      * apply same_views_intro; [exact G|exact G'|]. apply rework; [apply init_same; exact I|intros i x' Hx; destruct (B1 i x' Hx) as (x & Hx0 & _); exists x; exact Hx0|].
        intros i x m Hx R. destruct (B2 i x Hx) as (x' & Hx' & Aq). rewrite Hx'. destruct (Const i x Hx) as (Eq & En).
        assert (Ac : aeq (acut p x) x').
        { destruct Aq as (Q1 & Q2 & Q3). split; [|split]; intros q; [rewrite <- Q1|rewrite <- Q2|rewrite <- Q3]; cbn [acut without a_in a_out a_inh]; destruct (Nat.eqb_spec q p) as [->|_]; try reflexivity. rewrite Eq. lia. }
        destruct (En m R) as (E1 & E2). split; [eapply acut_en; eauto|apply (acut_fire Ac); lia].
      * apply (@aclosed_lighter s (anet_of b)); [exact A|apply init_same; exact I|]. intros i x' Hx. destruct (B1 i x' Hx) as (x & Hx0 & Aq). exists x. split; [exact Hx0|eapply lighter_without; exact Aq].
    + destruct (@estep_place inq s b p G A Sk Q) as (b' & E & St & _); [|exists b'; auto].
      intros m t x R Hx W q. destruct (Const t x Hx) as (_ & En). destruct (Nat.eq_dec q p) as [->|Hq]; [apply (En m R)|]. specialize (W q). cbn [without a_in a_inh] in W. destruct (Nat.eqb_spec q p); [contradiction|exact W].
  - destruct (@e_arcs_ok inq s p (rev (bp_cons (pl_of b p))) b true G A) as (b1 & ok & E & St & Fl & K).
    { apply NoDup_rev. apply sorted_nodup, (g_scons G). } { intros t Ht. apply in_rev. exact Ht. }
    rewrite E. cbn [bind]. destruct ok; cbn [andb]; [|exists b1; auto]. destruct (inq p) eqn:Q; cbn [negb]; [exists b1; auto|]. destruct (K eq_refl) as (_ & K1). pose proof St as (G1 & _ & A1 & _).
    destruct (@estep_place inq s b1 p G1 A1) as (b' & E' & St' & _); [rewrite (proj1 (Fl p)); exact Sk|exact Q| |exists b'; split; [exact E'|eapply estep_trans; eauto]].
    intros m t x R Hx W q. destruct (Nat.eq_dec q p) as [->|Hq]; [|specialize (W q); cbn [without a_in a_inh] in W; destruct (Nat.eqb_spec q p); [contradiction|exact W]].
    apply live_tr in Hx. destruct Hx as (-> & _). assert (Z : get_arc (bt_pre (tr_of b1 t)) p = None).
    { apply (proj2 (in_arc_none p t G1)). intros Hc. destruct (K1 t Hc) as (H1 & H2). apply H2. rewrite <- in_rev. exact H1. }
    unfold atr_of, wt, ih. cbn [a_in a_inh]. rewrite Z. split; [lia|discriminate].
Qed.
Lemma e_places_ok : forall inq s l b, good b -> aclosed s (anet_of b) -> exists b', fold_res (e_place inq s) l b = Ok b' /\ estep inq s b b'.
Proof.
  intros inq s. induction l as [|p l IH]; intros b G A; [exists b; split; [reflexivity|apply estep_refl; assumption]|]. cbn [fold_res].
  destruct (@e_place_ok inq s b p G A) as (b1 & E1 & St1). rewrite E1. cbn [bind]. pose proof St1 as (G1 & _ & A1 & _). destruct (IH b1 G1 A1) as (b' & E & St). exists b'. split; [exact E|eapply estep_trans; eauto].
Qed.

(** the fixed point describes the reachable markings *)
Lemma efm_fix : forall b, good b -> exists s,
  e_loop b (e_fuel b) (fold_left (e_start b) (seq 0 (length (b_trans b))) (mkEfm (fun _ => false) (fun _ => false) (init_at b) (fun _ => false) [])) = Ok s /\
  (forall p, (e_low s p <= init_at b p)%N) /\ (forall t, e_done s t = true -> forall p, noted s (atr_of (tr_of b t)) p) /\
  (forall t, e_done s t = true -> forall p, ((a_in (atr_of (tr_of b t)) p <= init_at b p)%N \/ e_inc s p = true) /\ (forall w, a_inh (atr_of (tr_of b t)) p = Some w -> (init_at b p < w)%N \/ e_dec s p = true)) /\
  (forall m, areach (anet_of b) m -> within s (init_at b) m) /\ (forall m i x, areach (anet_of b) m -> an_tr (anet_of b) i = Some x -> aen x m -> e_done s i = true).
Proof.
  intros b G. set (s0 := mkEfm (fun _ => false) (fun _ => false) (init_at b) (fun _ => false) []).
  pose proof (@e_starts_ok b (length (b_trans b)) 0 s0 G (e_init_ok G)) as F1. set (s1 := fold_left (e_start b) (seq 0 (length (b_trans b))) s0) in *.
  assert (T1 : todo b s1 < e_fuel b).
  { pose proof (e_starts_todo b (seq 0 (length (b_trans b))) s0) as K. fold s1 in K. unfold e_fuel. assert (X : todo b s0 = 2 * list_sum (map (fun p => length (bp_cons (pl_of b p))) (seq 0 (length (b_places b))))) by (unfold todo, s0; cbn [e_q e_inc e_dec length]; lia). lia. }
  destruct (@e_loop_ok b (e_fuel b) s1 G F1 T1) as (s & E & [C Lo No Ma] & Eq). exists s. split; [exact E|]. split; [exact Lo|]. split; [exact No|].
  assert (Dn : forall m i x, within s (init_at b) m -> an_tr (anet_of b) i = Some x -> aen x m -> e_done s i = true).
  { intros m i x W Hx En. apply live_tr in Hx. destruct Hx as (-> & L). destruct (e_done s i) eqn:D; [reflexivity|exfalso]. destruct (C i L D) as [H|[(a & Ha & B)|[]]]; [rewrite Eq in H; exact H|].
    pose proof (proj1 (aen_arcs (tr_of b i) m (g_spre G i)) En a Ha) as En1. unfold blocked_arc in B. destruct (W (arc_place a)) as (_ & W2 & W3). destruct (arc_inhib a); destruct B as (B1 & B2); [specialize (W3 B2)|specialize (W2 B2)]; lia. }
  assert (Wt : forall m, areach (anet_of b) m -> within s (init_at b) m).
  { apply areach_ind; [intros m X; apply (@within_init s (anet_of b)); assumption|]. intros m i x m1 _ W Hx En X. eapply within_step; [exact W| |exact En|exact X]. pose proof (Dn m i x W Hx En) as D. apply live_tr in Hx. destruct Hx as (-> & _). apply No. exact D. }
  split; [|split; [exact Wt|intros m i x R; apply Dn; apply Wt; exact R]].
  intros t D p. cbn [atr_of a_in a_inh]. unfold wt, ih. destruct (get_arc (bt_pre (tr_of b t)) p) as [a|] eqn:Ea; [|split; [left; lia|discriminate]]. apply get_arc_in in Ea. destruct Ea as (Ha & <-). pose proof (Ma t D a Ha) as M. unfold arc_may in M. destruct (arc_inhib a); [split; [left; lia|intros w [= <-]; exact M]|split; [exact M|discriminate]].
Qed.
Theorem rule_efmnop_ok : forall inq b, good b -> sound_result inq b (rule_efmnop inq b).
Proof.
  intros inq b G. unfold rule_efmnop. destruct (efm_fix G) as (s & E & Lo & No & Ma & Wt & Dn). rewrite E. cbn [bind].
  destruct (@drop_unless_ok (e_done s) (seq 0 (length (b_trans b))) b G) as (b1 & E1 & G1 & Fr & I & Fl & T); [intros t Ht; apply in_seq in Ht; lia|]. rewrite E1. cbn [bind].
  assert (Lv : forall i, live b1 i = live b i && e_done s i).
  { intros i. unfold live. rewrite (f_nt Fr), T. destruct (Nat.ltb_spec i (length (b_trans b))) as [Hi|Hi]; [|reflexivity]. cbn [andb]. assert (X : existsb (Nat.eqb i) (seq 0 (length (b_trans b))) = true) by (apply existsb_in, in_seq; lia). rewrite X. cbn [andb].
    destruct (bt_skip (tr_of b i)) eqn:Sk; cbn [negb andb]; [rewrite Sk; reflexivity|]. destruct (e_done s i); cbn [negb]; [rewrite Sk|]; reflexivity. }
  assert (Tl : forall i, live b1 i = true -> tr_of b1 i = tr_of b i).
  { intros i H. rewrite Lv in H. apply andb_true_iff in H. destruct H as (_ & H). rewrite T, H. cbn [negb]. rewrite andb_false_r. reflexivity. }
  assert (A : aclosed s (anet_of b1)).
  { constructor.
    - intros p. cbn [anet_of an_init]. unfold init_at. rewrite I. apply Lo.
    - intros i x p Hx. apply live_tr in Hx. destruct Hx as (-> & L). rewrite (Tl i L). apply No. rewrite Lv in L. apply andb_true_iff in L. apply L.
    - intros i x p Hx. apply live_tr in Hx. destruct Hx as (-> & L). rewrite (Tl i L). rewrite Lv in L. apply andb_true_iff in L. destruct L as (_ & D). cbn [anet_of an_init]. assert (Ei : init_at b1 p = init_at b p) by (unfold init_at; rewrite I; reflexivity). rewrite Ei. apply (Ma i D p). }
  assert (V : same_views inq b b1).
  { apply same_views_intro; [exact G|exact G1|]. apply drop_dead; [apply init_same; exact I| |].
    - intros i x Hx. apply live_tr in Hx. destruct Hx as (-> & L). rewrite (Tl i L). rewrite Lv in L. apply andb_true_iff in L. apply tr_live. apply L.
    - intros m i x R Hx En. pose proof (Dn m i x R Hx En) as D. apply live_tr in Hx. destruct Hx as (-> & L). assert (L1 : live b1 i = true) by (rewrite Lv, L, D; reflexivity). rewrite <- (Tl i L1). apply tr_live. exact L1. }
  destruct (@e_places_ok inq s (seq 0 (length (b_places b))) b1 G1 A) as (b2 & E2 & (G2 & V2 & _)). rewrite E2. split; [exact G2|]. eapply same_views_trans; eauto.
Qed.
