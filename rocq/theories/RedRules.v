(** Rules F, G, L and J. *)
From Verif Require Import Base BaseLemmas NetSpec NetModel BuilderModel RedTheory RedSpec RedModel RedProofs RedNet.
Set Implicit Arguments.

Lemma result_refl : forall inq b, good b -> sound_result inq b (Ok b).
Proof. intros inq b G. split; [exact G|apply same_views_refl]. Qed.
Lemma result_same : forall inq b b', good b -> good b' -> same inq (anet_of b) (anet_of b') -> sound_result inq b (Ok b').
Proof. intros inq b b' G G' H. split; [exact G'|apply same_views_intro; assumption]. Qed.

(** ** Arcs of a good builder *)
Lemma cons_arc : forall b p t, good b -> In t (bp_cons (pl_of b p)) -> exists a, in_arc b p t = Some a /\ In a (bt_pre (tr_of b t)) /\ arc_place a = p.
Proof. intros b p t G H. apply (g_cons G) in H. apply get_arc_some; [apply (g_spre G)|exact H]. Qed.
Lemma prod_arc : forall b p t, good b -> In t (bp_prod (pl_of b p)) -> exists a, out_arc b t p = Some a /\ In a (bt_post (tr_of b t)) /\ arc_place a = p.
Proof. intros b p t G H. apply (g_prod G) in H. apply get_arc_some; [apply (g_spost G)|exact H]. Qed.
Lemma arc_cons : forall b p t a, good b -> in_arc b p t = Some a -> In t (bp_cons (pl_of b p)) /\ In a (bt_pre (tr_of b t)) /\ arc_place a = p.
Proof. intros b p t a G H. apply get_arc_in in H. destruct H as (H & E). split; [apply (g_cons G); rewrite <- E; apply in_map; exact H|split; assumption]. Qed.
Lemma arc_prod : forall b p t a, good b -> out_arc b t p = Some a -> In t (bp_prod (pl_of b p)) /\ In a (bt_post (tr_of b t)) /\ arc_place a = p.
Proof. intros b p t a G H. apply get_arc_in in H. destruct H as (H & E). split; [apply (g_prod G); rewrite <- E; apply in_map; exact H|split; assumption]. Qed.
Lemma in_arc_none : forall b p t, good b -> (in_arc b p t = None <-> ~ In t (bp_cons (pl_of b p))).
Proof. intros b p t G. rewrite (g_cons G). apply get_arc_none. apply (g_spre G). Qed.
Lemma out_arc_none : forall b p t, good b -> (out_arc b t p = None <-> ~ In t (bp_prod (pl_of b p))).
Proof. intros b p t G. rewrite (g_prod G). apply get_arc_none. apply (g_spost G). Qed.
Lemma a_in_of : forall b t p, a_in (atr_of (tr_of b t)) p = match in_arc b p t with Some a => if arc_inhib a then 0%N else arc_weight a | None => 0%N end.
Proof. reflexivity. Qed.
Lemma a_out_of : forall b t p, good b -> a_out (atr_of (tr_of b t)) p = match out_arc b t p with Some a => arc_weight a | None => 0%N end.
Proof.
  intros b t p G. unfold atr_of, wt, out_arc. cbn [a_out]. destruct (get_arc (bt_post (tr_of b t)) p) as [a|] eqn:E; [|reflexivity].
  apply get_arc_in in E. destruct E as (Ha & _). destruct (g_post G t a Ha) as (_ & _ & X). rewrite X. reflexivity.
Qed.
Lemma a_inh_flag : forall b t p w, good b -> a_inh (atr_of (tr_of b t)) p = Some w -> bp_inhib (pl_of b p) = true /\ bt_inhib (tr_of b t) = true.
Proof.
  intros b t p w G. unfold atr_of, ih. cbn [a_inh]. destruct (get_arc (bt_pre (tr_of b t)) p) as [a|] eqn:E; [|discriminate].
  destruct (arc_inhib a) eqn:I; [intros _|discriminate]. apply get_arc_in in E. destruct E as (Ha & <-). destruct (g_pre G t a Ha) as (_ & _ & X). destruct (X I). split; assumption.
Qed.
Lemma live_tr : forall b t x, an_tr (anet_of b) t = Some x -> x = atr_of (tr_of b t) /\ live b t = true.
Proof. intros b t x H. cbn in H. destruct (live b t); [injection H as <-; split; reflexivity|discriminate]. Qed.
Lemma tr_live : forall b t, live b t = true -> an_tr (anet_of b) t = Some (atr_of (tr_of b t)).
Proof. intros b t H. cbn. rewrite H. reflexivity. Qed.
Lemma live_spec : forall b t, live b t = true <-> t < length (b_trans b) /\ bt_skip (tr_of b t) = false.
Proof. intros b t. unfold live. rewrite andb_true_iff, Nat.ltb_lt, negb_true_iff. reflexivity. Qed.
Lemma arc_live : forall b t a, good b -> In a (bt_pre (tr_of b t)) \/ In a (bt_post (tr_of b t)) -> live b t = true.
Proof.
  intros b t a G H. apply live_spec. split; [destruct H as [H|H]; [eapply in_pre_range|eapply in_post_range]; exact H|].
  destruct (bt_skip (tr_of b t)) eqn:E; [|reflexivity]. destruct (g_skip G t E) as (A & B). rewrite A, B in H. destruct H as [[]|[]].
Qed.

(** the abstract net after the elementary changes *)
Lemma anet_skip_t : forall b b' t, frame b b' -> (forall u, tr_of b' u = if Nat.eqb u t then gone (tr_of b t) else tr_of b u) ->
  forall u, an_tr (anet_of b') u = if Nat.eqb u t then None else an_tr (anet_of b) u.
Proof.
  intros b b' t F T u. cbn. unfold live. rewrite (f_nt F), T. destruct (Nat.eqb u t); [|reflexivity]. cbn. rewrite andb_false_r. reflexivity.
Qed.
Lemma without_noplace : forall b p u, good b -> aeq (without p (atr_of (tr_of b u))) (atr_of (noplace p (tr_of b u))).
Proof.
  intros b p u G. unfold aeq, without, atr_of, noplace, wt, ih. cbn [a_in a_out a_inh bt_pre bt_post].
  split; [|split]; intros q; rewrite get_del by (apply (g_spre G) || apply (g_spost G)); destruct (Nat.eqb q p); reflexivity.
Qed.
Lemma anet_skip_p : forall b b' p, good b -> frame b b' -> (forall u, tr_of b' u = noplace p (tr_of b u)) ->
  (forall i t', an_tr (anet_of b') i = Some t' -> exists t, an_tr (anet_of b) i = Some t /\ aeq (without p t) t') /\
  (forall i t, an_tr (anet_of b) i = Some t -> exists t', an_tr (anet_of b') i = Some t' /\ aeq (without p t) t').
Proof.
  intros b b' p G F T. assert (L : forall i, live b' i = live b i) by (intros i; unfold live; rewrite (f_nt F), T; reflexivity).
  split; intros i x H; apply live_tr in H; destruct H as (-> & H).
  - exists (atr_of (tr_of b i)). rewrite L in H. split; [apply tr_live; exact H|]. rewrite T. apply without_noplace. exact G.
  - exists (atr_of (tr_of b' i)). split; [apply tr_live; rewrite L; exact H|]. rewrite T. apply without_noplace. exact G.
Qed.
Lemma skip_transition_drop : forall inq b t, good b -> live b t = true ->
  (forall b', good b' -> frame b b' -> b_init b' = b_init b -> (forall u, an_tr (anet_of b') u = if Nat.eqb u t then None else an_tr (anet_of b) u) ->
     same inq (anet_of b) (anet_of b')) -> sound_result inq b (skip_transition b t).
Proof.
  intros inq b t G Hl H. apply live_spec in Hl. destruct Hl as (Hl & Hs). destruct (skip_transition_ok G Hl Hs) as (b' & E & G' & F & I & _ & T).
  rewrite E. apply result_same; [exact G|exact G'|]. apply H; auto. eapply anet_skip_t; eauto.
Qed.
Lemma skip_place_drop : forall inq b p, good b -> bp_skip (pl_of b p) = false -> inq p = false ->
  (forall m t x, areach (anet_of b) m -> an_tr (anet_of b) t = Some x -> aen (without p x) m -> aen x m) ->
  sound_result inq b (skip_place b p).
Proof.
  intros inq b p G Hp Hq H. destruct (skip_place_ok p G Hp) as (b' & E & G' & F & I & _ & _ & _ & T). rewrite E.
  apply result_same; [exact G|exact G'|]. destruct (@anet_skip_p b b' p G F T) as (A & B).
  apply drop_place with (p0 := p); [exact Hq| |exact A|exact B|exact H]. intros q _. cbn. unfold init_at. rewrite I. reflexivity.
Qed.

(** ** Loops *)
Lemma all_res_true : forall {B} (f : B -> res bool) l, all_res f l = Ok true -> forall y, In y l -> f y = Ok true.
Proof.
  intros B f. induction l as [|x l IH]; intros H y Hy; [contradiction|]. cbn [all_res] in H. destruct (f x) as [[|]| | |] eqn:E; cbn [bind] in H; try discriminate.
  destruct Hy as [<-|Hy]; [exact E|apply IH; assumption].
Qed.
Lemma all_res_ok : forall {B} (f : B -> res bool) l, (forall y, In y l -> exists r, f y = Ok r) -> exists r, all_res f l = Ok r.
Proof.
  intros B f. induction l as [|x l IH]; intros H; [exists true; reflexivity|]. cbn [all_res]. destruct (H x (or_introl eq_refl)) as ([|] & E); rewrite E; cbn [bind]; [|exists false; reflexivity].
  apply IH. intros y Hy. apply H. right. exact Hy.
Qed.

(** ** Rule F *)
Lemma at_least : forall b p v, good b -> (v <= init_at b p)%N ->
  (forall t a, In t (bp_cons (pl_of b p)) -> in_arc b p t = Some a -> arc_inhib a = false -> exists o, out_arc b t p = Some o /\ (arc_weight a <= arc_weight o \/ v <= arc_weight o)%N) ->
  forall m, areach (anet_of b) m -> (v <= m p)%N.
Proof.
  intros b p v G H0 H. apply areach_ind.
  - intros m E. rewrite E. exact H0.
  - intros m i x m1 _ IH Hx En X. apply live_tr in Hx. destruct Hx as (-> & _). rewrite X. unfold afire. specialize (En p). destruct En as (En & _).
    rewrite a_in_of in *. rewrite a_out_of by exact G. destruct (in_arc b p i) as [a|] eqn:Ea; [|lia]. destruct (arc_inhib a) eqn:Ia; [lia|].
    destruct (arc_cons _ _ G Ea) as (Hc & _). destruct (H i a Hc Ea Ia) as (o & Eo & Ho). rewrite Eo. lia.
Qed.
Theorem rule_f_ok : forall inq b p, good b -> sound_result inq b (rule_f inq b p).
Proof.
  intros inq b p G. unfold rule_f. destruct (bp_skip (pl_of b p)) eqn:Sk; [apply result_refl; exact G|]. destruct (bp_inhib (pl_of b p)) eqn:Ih; [apply result_refl; exact G|].
  destruct (_ <? _); [apply result_refl; exact G|]. destruct (inq p) eqn:Q; [apply result_refl; exact G|].
  match goal with |- sound_result _ _ (ok <- all_res ?f ?l ;; _) => destruct (@all_res_ok _ f l) as (r & E); [|assert (T := @all_res_true _ f l); rewrite E in *; cbn [bind]] end.
  - intros t Ht. destruct (cons_arc _ _ G Ht) as (a & Ea & _). rewrite Ea. cbn [some bind]. destruct (_ <? _)%N; [exists false; reflexivity|]. destruct (out_arc b t p); eexists; reflexivity.
  - destruct r; cbn [negb]; [|apply result_refl; exact G]. destruct (1 <? live_places b); [|apply result_refl; exact G].
    specialize (T eq_refl). apply skip_place_drop; [exact G|exact Sk|exact Q|].
    assert (K : forall t a, In t (bp_cons (pl_of b p)) -> in_arc b p t = Some a -> (arc_weight a <= init_at b p)%N /\ exists o, out_arc b t p = Some o /\ (arc_weight a <= arc_weight o)%N).
    { intros t a Ht Ea. specialize (T t Ht). rewrite Ea in T. cbn [some bind] in T. destruct (N.ltb_spec (init_at b p) (arc_weight a)); [discriminate|]. split; [assumption|].
      destruct (out_arc b t p) as [o|]; [|discriminate]. exists o. split; [reflexivity|]. destruct (N.ltb_spec (arc_weight o) (arc_weight a)); [discriminate|assumption]. }
    assert (Inv : forall m, areach (anet_of b) m -> (init_at b p <= m p)%N).
    { apply at_least; [exact G|lia|]. intros t a Ht Ea _. destruct (K t a Ht Ea) as (_ & o & Eo & Ho). exists o. split; [exact Eo|left; exact Ho]. }
    intros m t x Hm Hx W q. apply live_tr in Hx. destruct Hx as (-> & _). destruct (Nat.eqb_spec q p) as [->|Hq].
    + split.
      * rewrite a_in_of. destruct (in_arc b p t) as [a|] eqn:Ea; [|lia]. destruct (arc_cons _ _ G Ea) as (Hc & _). destruct (K t a Hc Ea) as (K1 & _). specialize (Inv m Hm). destruct (arc_inhib a); lia.
      * intros w Hw. apply (a_inh_flag _ _ G) in Hw. destruct Hw; congruence.
    + specialize (W q). cbn [without a_in a_inh] in W. destruct (Nat.eqb_spec q p); [contradiction|exact W].
Qed.

(** ** Rule G *)
Lemma g_walk_ok : forall inq b c pre post, g_walk inq b c pre post = true ->
  (forall o, In o post -> exists a, In a pre /\ arc_place a = arc_place o /\ (arc_weight o <= arc_weight a)%N) /\
  (forall a, In a pre -> arc_inhib a = false /\ bp_inhib (pl_of b (arc_place a)) = false /\
     (inq (arc_place a) = true -> exists o, In o post /\ arc_place o = arc_place a /\ arc_weight o = arc_weight a)).
Proof.
  intros inq b c. induction pre as [|a pre IH]; intros post.
  - destruct post as [|o post]; cbn; [intros _; split; intros x []|discriminate].
  - cbn [g_walk]. destruct post as [|o post].
    + destruct (arc_inhib a) eqn:Ia; [discriminate|]. cbn [orb]. destruct (bp_inhib (pl_of b (arc_place a))) eqn:Ib; [discriminate|].
      destruct (inq (arc_place a)) eqn:Q; [discriminate|]. destruct c; cbn [orb negb]; [|discriminate]. intros H. destruct (IH _ H) as (A & B). split; [intros o []|].
      intros x [<-|Hx]; [|apply B; exact Hx]. split; [exact Ia|]. split; [exact Ib|]. congruence.
    + destruct (arc_inhib a) eqn:Ia; [discriminate|]. cbn [orb]. destruct (bp_inhib (pl_of b (arc_place a))) eqn:Ib; [discriminate|].
      destruct (Nat.eqb_spec (arc_place a) (arc_place o)) as [E|E].
      * destruct (negb c && _); [discriminate|].
        destruct ((inq (arc_place a) && negb (arc_weight a =? arc_weight o)%N) || (negb (inq (arc_place a)) && (arc_weight a <? arc_weight o)%N)) eqn:Z; [discriminate|].
        intros H. destruct (IH _ H) as (A & B). apply orb_false_iff in Z. destruct Z as (Z1 & Z2).
        assert (W : (arc_weight o <= arc_weight a)%N /\ (inq (arc_place a) = true -> arc_weight o = arc_weight a)).
        { destruct (inq (arc_place a)); cbn [negb andb] in *; [apply negb_false_iff, N.eqb_eq in Z1; split; [lia|congruence]|apply N.ltb_ge in Z2; split; [exact Z2|discriminate]]. }
        split.
        -- intros x [<-|Hx]; [exists a; split; [left; reflexivity|split; [exact E|apply W]]|]. destruct (A x Hx) as (a' & Ha' & R). exists a'. split; [right; exact Ha'|exact R].
        -- intros x [<-|Hx]; [split; [exact Ia|split; [exact Ib|]]; intros Q; exists o; split; [left; reflexivity|split; [symmetry; exact E|apply W; exact Q]]|].
           destruct (B x Hx) as (B1 & B2 & B3). split; [exact B1|]. split; [exact B2|]. intros Q. destruct (B3 Q) as (o' & Ho' & R). exists o'. split; [right; exact Ho'|exact R].
      * destruct (arc_place a <? arc_place o); [|discriminate]. destruct (inq (arc_place a)) eqn:Q; [discriminate|]. destruct c; cbn [orb negb]; [|discriminate].
        intros H. destruct (IH _ H) as (A & B). split.
        -- intros x Hx. destruct (A x Hx) as (a' & Ha' & R). exists a'. split; [right; exact Ha'|exact R].
        -- intros x [<-|Hx]; [|apply B; exact Hx]. split; [exact Ia|]. split; [exact Ib|]. congruence.
Qed.
Theorem rule_g_ok : forall inq loops consumers b t, good b -> t < length (b_trans b) -> sound_result inq b (rule_g inq loops consumers b t).
Proof.
  intros inq loops c b t G Ht. unfold rule_g. destruct loops; cbn [negb]; [|apply result_refl; exact G]. destruct (bt_skip (tr_of b t)) eqn:Sk; [apply result_refl; exact G|].
  destruct (bt_inhib (tr_of b t)) eqn:Ih; [apply result_refl; exact G|]. destruct (_ <? _); [apply result_refl; exact G|].
  destruct (g_walk inq b c (bt_pre (tr_of b t)) (bt_post (tr_of b t))) eqn:W; cbn [negb]; [|apply result_refl; exact G]. destruct (existsb _ _); [apply result_refl; exact G|].
  apply g_walk_ok in W. destruct W as (W1 & W2).
  apply skip_transition_drop; [exact G|apply live_spec; split; assumption|]. intros b' G' F I T.
  set (E := fun p => inq p = true \/ bp_inhib (pl_of b p) = true).
  apply drop_transitions with (U := fun _ => True) (E := E).
  - intros p. cbn. unfold init_at. rewrite I. reflexivity.
  - intros i x Hx. rewrite T in Hx. destruct (Nat.eqb i t); [discriminate|exact Hx].
  - intros i x Hx. rewrite T in Hx. destruct (Nat.eqb i t); [discriminate|]. apply live_tr in Hx. destruct Hx as (-> & _). split; [intros p _; left; exact Logic.I|].
    intros p w Hw. right. apply (a_inh_flag _ _ G Hw).
  - intros p Hp. left. exact Hp.
  - intros m i x Hm Hx En. destruct (Nat.eqb_spec i t) as [->|Hi].
    + apply live_tr in Hx. destruct Hx as (-> & _). exists m. split; [apply ar_nil, ext_refl|].
      assert (K : forall p, (a_out (atr_of (tr_of b t)) p <= a_in (atr_of (tr_of b t)) p)%N /\ (E p -> a_out (atr_of (tr_of b t)) p = a_in (atr_of (tr_of b t)) p)).
      { intros p. rewrite (a_out_of t p G), a_in_of. destruct (out_arc b t p) as [o|] eqn:Eo.
        - destruct (arc_prod _ _ G Eo) as (_ & Ho & Po). destruct (W1 o Ho) as (a & Ha & Pa & Wa). destruct (W2 a Ha) as (Ia & Ib & Ic).
          assert (Ea : in_arc b p t = Some a) by (unfold in_arc; rewrite <- Po, <- Pa; apply in_get_arc; [apply (g_spre G)|exact Ha]). rewrite Ea, Ia. split; [exact Wa|].
          intros [Q|Q]; [|rewrite <- Po, <- Pa in Q; congruence]. rewrite <- Po, <- Pa in Q. destruct (Ic Q) as (o' & Ho' & Po' & Wo').
          assert (Some o = Some o') by (rewrite <- Eo; unfold out_arc; rewrite <- Po, <- Pa, <- Po'; apply in_get_arc; [apply (g_spost G)|exact Ho']). congruence.
        - destruct (in_arc b p t) as [a|] eqn:Ea; [|split; [lia|reflexivity]]. destruct (arc_cons _ _ G Ea) as (_ & Ha & Pa). destruct (W2 a Ha) as (Ia & Ib & Ic). rewrite Ia. split; [lia|].
          intros [Q|Q]; [|rewrite <- Pa in Q; congruence]. rewrite <- Pa in Q. destruct (Ic Q) as (o & Ho & Po & _).
          exfalso. apply (out_arc_none p t G) in Eo. apply Eo. apply (g_prod G). rewrite <- Pa, <- Po. apply in_map. exact Ho. }
      split; intros p Hp; unfold afire; specialize (En p); specialize (K p); [lia|destruct K as (_ & K); rewrite (K Hp); lia].
    + exists (afire x m). split; [|split; intros; [lia|reflexivity]]. apply arun_one with (i := i) (t := x); [rewrite T; destruct (Nat.eqb_spec i t); [contradiction|exact Hx]|exact En|apply ext_refl].
Qed.

(** ** Rule L *)
Definition l_check (i j : option arc) : Prop :=
  match i with
  | None => True
  | Some x => exists y, j = Some y /\ arc_inhib x = arc_inhib y /\ (if arc_inhib x then arc_weight y <= arc_weight x else arc_weight x <= arc_weight y)%N
  end.
Definition from (q : nat) (l : list arc) : Prop := forall p, In p (map arc_place l) -> q <= p.
Lemma head_from : forall l q, srt l -> (forall h, head_place l = Some h -> q <= h) -> from q l.
Proof.
  intros [|a l] q Hs H p Hp; [contradiction|]. destruct Hs as (A & B). specialize (H _ eq_refl). destruct Hp as [<-|Hp]; [exact H|specialize (A _ Hp); lia].
Qed.
Lemma take_at_ok : forall l q, srt l -> from q l -> fst (take_at l q) = get_arc l q /\ srt (snd (take_at l q)) /\
  (forall p, p <> q -> get_arc (snd (take_at l q)) p = get_arc l p) /\
  length (snd (take_at l q)) <= length l /\ (head_place l = Some q -> length (snd (take_at l q)) < length l).
Proof.
  intros [|a l] q Hs H; [cbn; split; [reflexivity|]; split; [exact I|]; split; [reflexivity|]; split; [lia|discriminate]|].
  assert (Ha : q <= arc_place a) by (apply H; left; reflexivity). destruct Hs as (A & B). cbn [take_at get_arc head_place].
  destruct (Nat.ltb_spec (arc_place a) q) as [L|L]; [lia|]. destruct (Nat.eqb_spec (arc_place a) q) as [E|E]; cbn [fst snd].
  - split; [reflexivity|]. split; [exact B|]. split; [|split; [cbn; lia|cbn; lia]].
    intros p Hp. destruct (Nat.ltb_spec (arc_place a) p) as [L'|L']; [reflexivity|]. destruct (Nat.eqb_spec (arc_place a) p); [congruence|].
    apply get_arc_none; [exact B|]. intros X. specialize (A _ X). lia.
  - split; [reflexivity|]. split; [split; assumption|]. split; [reflexivity|]. split; [lia|congruence].
Qed.
Lemma omin_spec : forall a b q, omin a b = Some q -> (a = Some q \/ b = Some q) /\ (forall h, a = Some h -> q <= h) /\ (forall h, b = Some h -> q <= h).
Proof.
  intros [x|] [y|] q H; cbn in H; try discriminate; injection H as <-.
  - split; [destruct (Nat.min_spec x y) as [(_ & ->)|(_ & ->)]; tauto|]. split; intros h [= <-]; lia.
  - split; [left; reflexivity|]. split; [intros h [= <-]; lia|discriminate].
  - split; [right; reflexivity|]. split; [discriminate|intros h [= <-]; lia].
Qed.
Lemma omin_none : forall a b, omin a b = None -> a = None /\ b = None.
Proof. intros [x|] [y|] H; cbn in H; try discriminate. tauto. Qed.
Lemma head_none : forall l, head_place l = None -> l = [].
Proof. intros [|a l] H; [reflexivity|discriminate]. Qed.
Lemma l_walk_ok : forall fuel pre2 pre1 post2 post1, srt pre2 -> srt pre1 -> srt post2 -> srt post1 ->
  length pre1 + length pre2 + length post1 + length post2 < fuel ->
  exists r, l_walk fuel pre2 pre1 post2 post1 = Ok r /\
    (r = true -> forall p, l_check (get_arc pre2 p) (get_arc pre1 p) /\
       (eff (get_arc post1 p) - eff (get_arc pre1 p) = eff (get_arc post2 p) - eff (get_arc pre2 p))%Z).
Proof.
  induction fuel as [|f IH]; intros pre2 pre1 post2 post1 S2 S1 P2 P1 L; [lia|]. cbn [l_walk].
  destruct (omin (omin (head_place pre2) (head_place pre1)) (omin (head_place post2) (head_place post1))) as [q|] eqn:Eq.
  2:{ exists true. split; [reflexivity|]. intros _ p. apply omin_none in Eq. destruct Eq as (E1 & E2). apply omin_none in E1. apply omin_none in E2. destruct E1 as (E1 & E1'), E2 as (E2 & E2').
      apply head_none in E1, E1', E2, E2'. subst. split; [exact I|reflexivity]. }
  apply omin_spec in Eq. destruct Eq as (O & O1 & O2).
  assert (F : from q pre2 /\ from q pre1 /\ from q post2 /\ from q post1).
  { assert (X : forall a b, (forall h, omin a b = Some h -> q <= h) -> (forall h, a = Some h -> q <= h) /\ (forall h, b = Some h -> q <= h)).
    { intros [x|] [y|] X; cbn in X; split; intros h Hh; try discriminate; injection Hh as <-; specialize (X _ eq_refl); lia. }
    destruct (X _ _ O1) as (X1 & X2). destruct (X _ _ O2) as (X3 & X4). repeat split; apply head_from; assumption. }
  destruct F as (F2 & F1 & Fo2 & Fo1).
  destruct (@take_at_ok _ q S2 F2) as (A1 & A2 & A3 & A4 & A5). destruct (@take_at_ok _ q S1 F1) as (B1 & B2 & B3 & B4 & B5).
  destruct (@take_at_ok _ q P2 Fo2) as (C1 & C2 & C3 & C4 & C5). destruct (@take_at_ok _ q P1 Fo1) as (D1 & D2 & D3 & D4 & D5).
  destruct (take_at pre2 q) as (i & pre2'). destruct (take_at pre1 q) as (j & pre1'). destruct (take_at post2 q) as (k & post2'). destruct (take_at post1 q) as (l & post1'). cbn [fst snd] in *.
  assert (Ld : length pre1' + length pre2' + length post1' + length post2' < f).
  { destruct O as [O|O]; apply omin_spec in O; destruct O as ([O|O] & _); [specialize (A5 O)|specialize (B5 O)|specialize (C5 O)|specialize (D5 O)]; lia. }
  match goal with |- context [if ?c then (if _ then _ else _) else _] => destruct c eqn:Ck end; [|exists false; split; [reflexivity|discriminate]].
  destruct (Z.eqb_spec (eff l - eff j) (eff k - eff i)) as [Ee|Ee]; [|exists false; split; [reflexivity|discriminate]].
  destruct (IH pre2' pre1' post2' post1' A2 B2 C2 D2 Ld) as (r & E & R). exists r. split; [exact E|]. intros Hr p. destruct (Nat.eq_dec p q) as [->|Hp].
  - rewrite <- A1, <- B1, <- C1, <- D1. split; [|exact Ee]. unfold l_check. destruct i as [x|]; [|exact I]. destruct j as [y|]; [|discriminate]. exists y. split; [reflexivity|].
    apply andb_true_iff in Ck. destruct Ck as (Ck1 & Ck2). apply eqb_prop in Ck1. split; [exact Ck1|]. apply negb_true_iff, orb_false_iff in Ck2. destruct Ck2 as (K1 & K2).
    destruct (arc_inhib x); cbn [negb andb] in *; [apply N.ltb_ge in K2; exact K2|apply N.ltb_ge in K1; exact K1].
  - destruct (R Hr p) as (R1 & R2). rewrite A3, B3 in R1 by exact Hp. rewrite A3, B3, C3, D3 in R2 by exact Hp. split; assumption.
Qed.
Lemma eff_in : forall b t p, eff (in_arc b p t) = Z.of_N (a_in (atr_of (tr_of b t)) p).
Proof. intros b t p. rewrite a_in_of. unfold eff. destruct (in_arc b p t) as [a|]; [destruct (arc_inhib a); reflexivity|reflexivity]. Qed.
Lemma eff_out : forall b t p, good b -> eff (out_arc b t p) = Z.of_N (a_out (atr_of (tr_of b t)) p).
Proof.
  intros b t p G. rewrite (a_out_of t p G). unfold eff. destruct (out_arc b t p) as [a|] eqn:E; [|reflexivity]. destruct (arc_prod _ _ G E) as (_ & Ha & _). destruct (g_post G t a Ha) as (_ & _ & X). rewrite X. reflexivity.
Qed.
Theorem rule_l_ok : forall inq b t1 t2, good b -> t1 < length (b_trans b) -> t2 < length (b_trans b) -> sound_result inq b (rule_l b t1 t2).
Proof.
  intros inq b t1 t2 G H1 H2. unfold rule_l. destruct (bt_skip (tr_of b t1)) eqn:Sk1; [apply result_refl; exact G|].
  destruct (Nat.eqb_spec t2 t1) as [E|E]; [apply result_refl; exact G|]. destruct (bt_skip (tr_of b t2)) eqn:Sk2; [apply result_refl; exact G|]. destruct (_ || _); [apply result_refl; exact G|].
  match goal with |- context [l_walk ?f _ _ _ _] => destruct (@l_walk_ok f (bt_pre (tr_of b t2)) (bt_pre (tr_of b t1)) (bt_post (tr_of b t2)) (bt_post (tr_of b t1))) as (r & Er & R) end; try (apply (g_spre G) || apply (g_spost G)); [lia|].
  rewrite Er. cbn [bind]. destruct r; [|apply result_refl; exact G]. specialize (R eq_refl).
  apply skip_transition_drop; [exact G|apply live_spec; split; assumption|]. intros b' G' F I T.
  assert (L2 : an_tr (anet_of b') t2 = Some (atr_of (tr_of b t2))).
  { rewrite T. destruct (Nat.eqb_spec t2 t1); [contradiction|]. apply tr_live, live_spec. split; assumption. }
  assert (Sub : forall i x, an_tr (anet_of b') i = Some x -> an_tr (anet_of b) i = Some x) by (intros i x Hx; rewrite T in Hx; destruct (Nat.eqb i t1); [discriminate|exact Hx]).
  apply same_steps.
  - intros p. cbn. unfold init_at. rewrite I. reflexivity.
  - intros m m1 Hm (i & x & Hx & En & X). destruct (Nat.eqb_spec i t1) as [->|Hi].
    + apply live_tr in Hx. destruct Hx as (-> & _).
      assert (En2 : aen (atr_of (tr_of b t2)) m).
      { intros p. destruct (R p) as (Rc & _). destruct (En p) as (En1 & En1'). unfold atr_of, wt, ih in *. cbn [a_in a_inh] in *. unfold l_check in Rc.
        destruct (get_arc (bt_pre (tr_of b t2)) p) as [y|]; [|split; [lia|discriminate]]. destruct Rc as (z & Ez & Ei & Ew). rewrite Ez, <- Ei in *.
        destruct (arc_inhib y); split; try lia; intros w [= <-]. specialize (En1' _ eq_refl). lia. }
      eapply arun_one; [exact L2|exact En2|]. eapply ext_trans; [exact X|]. intros p. unfold afire. destruct (R p) as (_ & Re).
      change (get_arc (bt_post (tr_of b t1)) p) with (out_arc b t1 p) in Re. change (get_arc (bt_post (tr_of b t2)) p) with (out_arc b t2 p) in Re.
      change (get_arc (bt_pre (tr_of b t1)) p) with (in_arc b p t1) in Re. change (get_arc (bt_pre (tr_of b t2)) p) with (in_arc b p t2) in Re.
      rewrite !eff_in, !eff_out in Re by exact G. specialize (En p). specialize (En2 p). lia.
    + apply arun_one with (i := i) (t := x); [rewrite T; destruct (Nat.eqb_spec i t1); [contradiction|exact Hx]|exact En|exact X].
  - intros m m1 Hm (i & x & Hx & En & X). eapply arun_one; [apply Sub; exact Hx|exact En|exact X].
Qed.
