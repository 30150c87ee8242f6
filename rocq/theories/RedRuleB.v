(** Rule B keeps what can be seen through the protected places. *)
From Verif Require Import Base BaseLemmas NetSpec NetModel BuilderModel RedTheory RedSpec RedModel RedProofs RedNet RedRules RedRuleJ RedAgg RedOps RedRuleA RedModelH RedRuleH RedModelB RedCand RedMerge.
Set Implicit Arguments.

Lemma sbq_trans : forall x y z, same_but_pre x y -> same_but_pre y z -> same_but_pre x z.
Proof. intros x y z [A B C] [A' B' C']. constructor; congruence. Qed.
Lemma add_ins : forall (f : arc -> N) c u l b, good b -> live b u = true -> bt_inhib (tr_of b u) = false -> (0 < c)%N -> srt l ->
  (forall a, In a l -> f a = (c * arc_weight a)%N /\ (0 < arc_weight a)%N /\ arc_inhib a = false /\ bp_skip (pl_of b (arc_place a)) = false) ->
  fold_res (fun b a => add_in b (arc_place a) u (f a)) l b = Throw \/
  exists b', fold_res (fun b a => add_in b (arc_place a) u (f a)) l b = Ok b' /\ good b' /\ frame b b' /\ b_init b' = b_init b /\ same_flags b b' /\
    (forall v, v <> u -> tr_of b' v = tr_of b v) /\ same_but_pre (tr_of b u) (tr_of b' u) /\
    (forall q, wt (bt_pre (tr_of b' u)) q = wt (bt_pre (tr_of b u)) q + c * wt l q)%N /\
    (forall q, bp_prod (pl_of b' q) = bp_prod (pl_of b q)) /\ (forall q, ~ In q (map arc_place l) -> pl_of b' q = pl_of b q).
Proof.
  intros f c u. induction l as [|a l IH]; intros b G Lv Hnu Hc Hs H.
  - right. exists b. split; [reflexivity|]. split; [exact G|]. split; [apply frame_refl|]. split; [reflexivity|]. split; [apply same_flags_refl|]. split; [reflexivity|]. split; [apply sbq_refl|]. split; [intros q; cbn; lia|split; reflexivity].
  - cbn [fold_res]. destruct (H a (or_introl eq_refl)) as (Hf & Hw & Hi & Hp). pose proof Hs as (A & B).
    assert (NI : forall x, in_arc b (arc_place a) u = Some x -> arc_inhib x = false) by (intros x Hx; destruct (arc_cons _ _ G Hx) as (_ & Hx' & _); apply (no_inh_t u G Hnu); exact Hx').
    destruct (@add_in_ok b u (arc_place a) (f a) G Lv Hp ltac:(rewrite Hf; nia) NI) as [E|(b1 & E & G1 & F1 & I1 & Fl1 & T1 & P1 & C1)]; rewrite E; cbn [bind]; [left; reflexivity|].
    assert (Lv1 : live b1 u = true) by (apply live_spec in Lv; apply live_spec; rewrite (f_nt F1), T1, Nat.eqb_refl; exact Lv).
    assert (Hnu1 : bt_inhib (tr_of b1 u) = false) by (rewrite T1, Nat.eqb_refl; exact Hnu).
    destruct (IH b1 G1 Lv1 Hnu1 Hc B) as [E2|(b' & E2 & G2 & F2 & I2 & Fl2 & T2 & S2 & W2 & C2 & P2)].
    + intros a' Ha'. destruct (H a' (or_intror Ha')) as (K1 & K2 & K3 & K4). rewrite (proj1 (Fl1 _)). auto.
    + left. exact E2.
    + right. exists b'. split; [exact E2|]. split; [exact G2|]. split; [eapply frame_trans; eauto|]. split; [congruence|]. split; [eapply same_flags_trans; eauto|].
      split; [intros v Hv; rewrite (T2 v Hv), T1; destruct (Nat.eqb_spec v u); [contradiction|reflexivity]|].
      split; [eapply sbq_trans; [|exact S2]; rewrite T1, Nat.eqb_refl; constructor; reflexivity|].
      split; [|split].
      * intros q. rewrite W2, T1, Nat.eqb_refl. cbn [with_pre bt_pre]. rewrite wt_plus1; [|apply (g_spre G)|exact NI]. rewrite wt_cons by exact Hs. rewrite Hi, Hf, (Nat.eqb_sym q).
        destruct (Nat.eqb_spec (arc_place a) q) as [<-|_]; [|lia]. rewrite (@wt_absent l (arc_place a) B); [lia|]. intros Hin. specialize (A _ Hin). lia.
      * intros q. rewrite C2. destruct (Nat.eq_dec q (arc_place a)) as [->|Hq]; [exact C1|rewrite (P1 q Hq); reflexivity].
      * intros q Hq. rewrite P2, P1; [reflexivity| |]; intros X; apply Hq; [left; auto|right; exact X].
Qed.

(** ** The arcs of the consumer apart from the place *)
Definition others (p : nat) (l : list arc) : list arc := filter (fun a => negb (Nat.eqb (arc_place a) p)) l.
Lemma others_in : forall p l a, In a (others p l) <-> In a l /\ arc_place a <> p.
Proof. intros p l a. unfold others. rewrite filter_In, negb_true_iff, Nat.eqb_neq. reflexivity. Qed.
Lemma others_srt : forall p l, srt l -> srt (others p l).
Proof.
  intros p. induction l as [|a l IH]; intros Hs; [exact I|]. destruct Hs as (A & B). cbn [others filter]. fold (others p l). destruct (negb (Nat.eqb (arc_place a) p)); [|apply IH; exact B].
  split; [|apply IH; exact B]. intros q Hq. apply A. apply in_map_iff in Hq. destruct Hq as (x & <- & Hx). apply others_in in Hx. apply in_map. apply Hx.
Qed.
Lemma wt_others : forall p l q, srt l -> wt (others p l) q = if Nat.eqb q p then 0%N else wt l q.
Proof.
  intros p l q Hs. destruct (Nat.eqb_spec q p) as [->|Hq].
  - apply wt_absent; [apply others_srt; exact Hs|]. intros X. apply in_map_iff in X. destruct X as (x & E & Hx). apply others_in in Hx. destruct Hx. contradiction.
  - unfold wt. destruct (get_arc l q) as [a|] eqn:E.
    + apply get_arc_in in E. destruct E as (Ha & E). assert (X : get_arc (others p l) q = Some a); [|rewrite X; reflexivity]. rewrite <- E. apply in_get_arc; [apply others_srt; exact Hs|]. apply others_in. split; [exact Ha|congruence].
    + assert (X : get_arc (others p l) q = None); [|rewrite X; reflexivity]. apply get_arc_none; [apply others_srt; exact Hs|]. intros X. apply (proj1 (@get_arc_none l q Hs) E). apply in_map_iff in X. destruct X as (x & <- & Hx). apply in_map. apply others_in in Hx. apply Hx.
Qed.

(** ** The merge of one producer *)
Lemma b_merge_effect : forall b p tin tout mult w, good b -> tin <> tout -> bp_skip (pl_of b p) = false -> In tout (bp_prod (pl_of b p)) -> ~ In tin (bp_prod (pl_of b p)) -> live b tin = true ->
  bt_inhib (tr_of b tin) = false -> bt_inhib (tr_of b tout) = false -> (0 < mult)%N -> (0 < w)%N ->
  b_merge b p tin tout mult w = Throw \/
  exists b', b_merge b p tin tout mult w = Ok b' /\ good b' /\ frame b b' /\ same_flags b b' /\
    (forall v, v <> tout -> tr_of b' v = tr_of b v) /\ bt_skip (tr_of b' tout) = bt_skip (tr_of b tout) /\
    bp_cons (pl_of b' p) = bp_cons (pl_of b p) /\ (forall v, In v (bp_prod (pl_of b' p)) <-> In v (bp_prod (pl_of b p)) /\ v <> tout) /\
    init_at b' p = 0%N /\
    (forall q, q <> p -> init_at b' q = init_at b q + (init_at b p / w) * wt (bt_post (tr_of b tin)) q + (init_at b p / w) * wt (bt_pre (tr_of b tin)) q)%N /\
    aeq (taken p mult (atr_of (tr_of b tin)) (atr_of (tr_of b tout))) (atr_of (tr_of b' tout)).
Proof.
  intros b p tin tout mult w G Hne Hp Ho Hni Lin Ii Io Hm Hw. unfold b_merge. cbv zeta.
  set (initm := (init_at b p / w)%N). set (post := bt_post (tr_of b tin)). change (filter (fun a => negb (Nat.eqb (arc_place a) p)) (bt_pre (tr_of b tin))) with (others p (bt_pre (tr_of b tin))). set (rest := others p (bt_pre (tr_of b tin))).
  assert (Sr : srt rest) by (apply others_srt; apply (g_spre G)).
  assert (Rg : forall q, bp_skip (pl_of b q) = false -> q < length (b_init b)) by (intros q Hq; rewrite (g_ni G), <- (g_np G); apply pl_range; exact Hq).
  assert (Hpost : forall a, In a post -> bp_skip (pl_of b (arc_place a)) = false /\ (0 < arc_weight a)%N /\ arc_inhib a = false) by (intros a Ha; apply (g_post G tin a Ha)).
  assert (Hrest : forall a, In a rest -> bp_skip (pl_of b (arc_place a)) = false /\ (0 < arc_weight a)%N /\ arc_inhib a = false).
  { intros a Ha. apply others_in in Ha. destruct Ha as (Ha & _). destruct (g_pre G tin a Ha) as (A & B & _). split; [exact A|]. split; [exact B|apply (no_inh_t tin G Ii a Ha)]. }
  assert (Np : ~ In p (map arc_place post)) by (intros X; apply Hni; apply (g_prod G); exact X).
  pose proof (only_init_set b p 0%N) as O0.
  destruct (@add_inits (fun a => initm * arc_weight a)%N initm post (set_init b p 0)) as [E1|(b1 & E1 & O1 & V1)]; [|apply (g_spost G)|rewrite E1; left; reflexivity|].
  { intros a Ha. destruct (Hpost a Ha) as (A & B & C). split; [reflexivity|]. split; [exact C|]. rewrite (oi_len O0). apply Rg. exact A. }
  rewrite E1. cbn [bind]. pose proof (only_init_trans O0 O1) as O01.
  destruct (@add_inits (fun a => initm * arc_weight a)%N initm rest b1) as [E2|(b2 & E2 & O2 & V2)]; [|exact Sr|rewrite E2; left; reflexivity|].
  { intros a Ha. destruct (Hrest a Ha) as (A & B & C). split; [reflexivity|]. split; [exact C|]. rewrite (oi_len O01). apply Rg. exact A. }
  rewrite E2. cbn [bind]. pose proof (only_init_trans O01 O2) as O. pose proof (only_init_good G O) as G2. destruct (only_init_places O) as (P2 & T2).
  assert (V : forall q, init_at b2 q = if Nat.eqb q p then 0%N else (init_at b q + initm * wt post q + initm * wt (bt_pre (tr_of b tin)) q)%N).
  { intros q. rewrite V2, V1, init_set by (apply Rg; exact Hp). unfold rest. rewrite wt_others by apply (g_spre G). destruct (Nat.eqb_spec q p) as [->|Hq]; [|reflexivity].
    rewrite (@wt_absent post p (g_spost G tin) Np). lia. }
  assert (Lo : live b tout = true) by (destruct (prod_arc p tout G Ho) as (a & _ & Ha & _); apply (@arc_live b tout a G); right; exact Ha).
  assert (Lo2 : live b2 tout = true) by (apply live_spec in Lo; apply live_spec; rewrite (oi_tr O), T2; exact Lo).
  destruct (@add_outs (fun a => mult * arc_weight a)%N mult tout post b2 G2 Lo2 Hm (g_spost G tin)) as [E3|(b3 & E3 & G3 & F3 & I3 & Fl3 & T3 & S3 & W3 & C3 & P3)]; [|rewrite E3; left; reflexivity|].
  { intros a Ha. destruct (Hpost a Ha) as (A & B & C). rewrite P2. auto. }
  rewrite E3. cbn [bind].
  assert (Lo3 : live b3 tout = true) by (apply live_spec in Lo2; apply live_spec; rewrite (f_nt F3), (sp_skip S3); exact Lo2).
  destruct (@add_ins (fun a => mult * arc_weight a)%N mult tout rest b3 G3 Lo3) as [E4|(b4 & E4 & G4 & F4 & I4 & Fl4 & T4 & S4 & W4 & C4 & P4)]; [rewrite (sp_inh S3), T2; exact Io|exact Hm|exact Sr| |rewrite E4; left; reflexivity|].
  { intros a Ha. destruct (Hrest a Ha) as (A & B & C). rewrite (proj1 (Fl3 _)), P2. auto. }
  rewrite E4. cbn [bind].
  assert (Nr : ~ In p (map arc_place rest)) by (intros X; apply in_map_iff in X; destruct X as (x & X1 & X2); apply others_in in X2; destruct X2; contradiction).
  assert (Pp : pl_of b4 p = pl_of b p) by (rewrite (P4 p Nr), (P3 p Np), P2; reflexivity).
  destruct (@skip_out_arc_ok b4 p tout G4) as (b5 & E5 & G5 & F5 & I5 & Fl5 & T5 & P5 & C5 & D5); [rewrite Pp; exact Ho|].
  rewrite E5. right. exists b5. split; [reflexivity|]. split; [exact G5|].
  assert (F02 : frame b b2) by (constructor; rewrite ?(oi_pn O), ?(oi_tn O), ?(oi_tr O), ?(oi_pl O); reflexivity).
  split; [eapply frame_trans; [exact F02|]; eapply frame_trans; [exact F3|]; eapply frame_trans; [exact F4|exact F5]|].
  assert (Fl : same_flags b b5).
  { intros q. destruct (Fl5 q) as (A1 & A2), (Fl4 q) as (B1 & B2), (Fl3 q) as (D1 & D2). rewrite A1, A2, B1, B2, D1, D2, P2. split; reflexivity. }
  split; [exact Fl|]. split; [|split; [|split; [|split; [|split; [|split]]]]].
  - intros v Hv. rewrite T5. destruct (Nat.eqb_spec v tout); [contradiction|]. rewrite (T4 v Hv), (T3 v Hv). apply T2.
  - rewrite T5, Nat.eqb_refl. cbn [with_post bt_skip]. rewrite (sq_skip S4), (sp_skip S3), T2. reflexivity.
  - rewrite C5, Pp. reflexivity.
  - intros v. rewrite D5, Pp. reflexivity.
  - unfold init_at. rewrite I5, I4, I3. fold (init_at b2 p). rewrite V, Nat.eqb_refl. reflexivity.
  - intros q Hq. unfold init_at at 1. rewrite I5, I4, I3. fold (init_at b2 q). rewrite V. destruct (Nat.eqb_spec q p); [contradiction|]. reflexivity.
  - rewrite T5, Nat.eqb_refl. split; [|split]; intros q; cbn [taken a_in a_out a_inh atr_of with_post bt_pre bt_post].
    + rewrite W4, (sp_pre S3), T2. unfold rest. rewrite wt_others by apply (g_spre G). destruct (Nat.eqb q p); lia.
    + change (wt (del_arc (bt_post (tr_of b4 tout)) p) q) with (match get_arc (del_arc (bt_post (tr_of b4 tout)) p) q with Some a => if arc_inhib a then 0%N else arc_weight a | None => 0%N end). rewrite get_del by apply (g_spost G4). destruct (Nat.eqb_spec q p) as [->|Hq]; [reflexivity|]. fold (wt (bt_post (tr_of b4 tout)) q). rewrite (sq_post S4), W3, T2. reflexivity.
    + assert (A : bt_inhib (tr_of b4 tout) = false) by (rewrite (sq_inh S4), (sp_inh S3), T2; exact Io).
      assert (NI : forall c t, good c -> bt_inhib (tr_of c t) = false -> ih (bt_pre (tr_of c t)) q = None).
      { intros c t Gc H. unfold ih. destruct (get_arc (bt_pre (tr_of c t)) q) as [x|] eqn:E; [|reflexivity]. apply get_arc_in in E. rewrite (no_inh_t t Gc H x (proj1 E)). reflexivity. }
      rewrite (NI b tout G Io), (NI b4 tout G4 A). reflexivity.
Qed.

Lemma b_check_some : forall inq rdl rc b p tin tout mult w, good b -> b_check inq rdl rc b p tin tout = Ok (Some (mult, w)) ->
  exists a o, in_arc b p tin = Some a /\ out_arc b tout p = Some o /\ w = arc_weight a /\ (arc_weight o = mult * w)%N /\ (0 < mult)%N /\ (0 < w)%N /\
    bp_inhib (pl_of b p) = false /\ bt_inhib (tr_of b tin) = false /\ bt_inhib (tr_of b tout) = false /\
    (forall x, In x (bt_post (tr_of b tin)) \/ In x (bt_pre (tr_of b tin)) -> bp_inhib (pl_of b (arc_place x)) = false /\ inq (arc_place x) = false) /\
    (length (bt_pre (tr_of b tin)) = 1 \/
     (length (bt_pre (tr_of b tin)) <> 1 /\ init_at b p = 0%N /\ bt_post (tr_of b tout) = [o] /\ forall x, In x (bt_pre (tr_of b tout)) -> inq (arc_place x) = false)).
Proof.
  intros inq rdl rc b p tin tout mult w G H. unfold b_check in H. cbv zeta in H.
  destruct (negb (Nat.eqb (length (bt_post (tr_of b tout))) 1) && negb (Nat.eqb (length (bt_pre (tr_of b tin))) 1)) eqn:C1; [discriminate|].
  destruct ((negb rdl || negb rc) && negb (Nat.eqb (length (bt_pre (tr_of b tin))) 1)) eqn:C2; [discriminate|].
  destruct ((0 <? init_at b p)%N && negb (Nat.eqb (length (bt_pre (tr_of b tin))) 1)) eqn:C3; [discriminate|].
  destruct (in_arc b p tin) as [a|] eqn:Ea; [|discriminate]. destruct (out_arc b tout p) as [o|] eqn:Eo; [|discriminate]. cbn [some bind] in H.
  destruct (N.ltb_spec (arc_weight o) (arc_weight a)) as [|L]; [discriminate|]. destruct (N.eqb_spec (arc_weight a) 0) as [|W0]; [discriminate|].
  destruct (N.eqb_spec (arc_weight o mod arc_weight a) 0) as [M|]; [|discriminate]. cbn [negb] in H.
  destruct (bp_inhib (pl_of b p)) eqn:Ip; [discriminate|]. destruct (bt_inhib (tr_of b tin)) eqn:Ii; [discriminate|]. destruct (bt_inhib (tr_of b tout)) eqn:Io; [discriminate|]. cbn [orb] in H.
  destruct (existsb _ (bt_post (tr_of b tin))) eqn:Q1; [discriminate|]. destruct (existsb _ (bt_pre (tr_of b tin))) eqn:Q2; [discriminate|].
  destruct (Nat.ltb 1 (length (bt_pre (tr_of b tin))) && existsb (fun x => inq (arc_place x)) (bt_pre (tr_of b tout))) eqn:Q3; [discriminate|].
  match type of H with (if ?e then _ else _) = _ => destruct e; [discriminate|] end. injection H as <- <-.
  destruct (arc_cons _ _ G Ea) as (Hc & Ha & Pa). destruct (arc_prod _ _ G Eo) as (Hd & Ho & Po).
  assert (NE : forall (f : arc -> bool) l x, existsb f l = false -> In x l -> f x = false) by (intros f l x Hf Hx; destruct (f x) eqn:E; [|reflexivity]; rewrite <- Hf; symmetry; apply existsb_exists; exists x; auto).
  exists a, o. split; [reflexivity|]. split; [reflexivity|]. split; [reflexivity|].
  split; [rewrite N.mul_comm; apply N.mod_divide in M; [|exact W0]; destruct M as (d & M); rewrite M, N.div_mul by exact W0; lia|]. split; [apply N.div_str_pos; lia|]. split; [lia|]. split; [reflexivity|]. split; [reflexivity|]. split; [reflexivity|]. split.
  - intros x [Hx|Hx]; apply orb_false_iff; [exact (NE _ _ x Q1 Hx)|exact (NE _ _ x Q2 Hx)].
  - destruct (Nat.eqb_spec (length (bt_pre (tr_of b tin))) 1) as [E|E]; [left; exact E|right]. split; [exact E|]. rewrite andb_true_r in C1, C3. apply N.ltb_ge in C3. split; [lia|]. split.
    + apply negb_false_iff, Nat.eqb_eq in C1. destruct (bt_post (tr_of b tout)) as [|y [|z l]]; try discriminate. destruct Ho as [->|[]]. reflexivity.
    + intros x Hx. assert (Lt : 1 < length (bt_pre (tr_of b tin))) by (destruct (bt_pre (tr_of b tin)) as [|y [|z l]]; [destruct Ha|cbn in E; congruence|cbn; lia]).
      apply Nat.ltb_lt in Lt. rewrite Lt in Q3. cbn [andb] in Q3. exact (NE _ _ x Q3 Hx).
Qed.

Lemma b_check_ok : forall inq rdl rc b p tin tout, good b -> In tin (bp_cons (pl_of b p)) -> In tout (bp_prod (pl_of b p)) -> exists r, b_check inq rdl rc b p tin tout = Ok r.
Proof.
  intros inq rdl rc b p tin tout G Hi Ho. unfold b_check. cbv zeta. destruct (cons_arc p tin G Hi) as (a & -> & Ha & _). destruct (prod_arc p tout G Ho) as (o & -> & _). cbn [some bind].
  destruct (g_pre G tin a Ha) as (_ & W & _). destruct (N.eqb_spec (arc_weight a) 0); [lia|].
  repeat match goal with |- exists r, (if ?e then _ else _) = _ => destruct e; [eexists; reflexivity|] end. eexists. reflexivity.
Qed.

(** one producer *)
Lemma b_producer_ok : forall inq rdl rc b p tin tout, good b -> bp_skip (pl_of b p) = false -> inq p = false -> bp_cons (pl_of b p) = [tin] -> ~ In tin (bp_prod (pl_of b p)) -> In tout (bp_prod (pl_of b p)) -> b_fair b p ->
  b_producer inq rdl rc p tin b tout = Throw \/
  exists b', b_producer inq rdl rc p tin b tout = Ok b' /\ good b' /\ same inq (anet_of b) (anet_of b') /\ frame b b' /\ same_flags b b' /\ b_fair b' p /\
    bp_cons (pl_of b' p) = [tin] /\ tr_of b' tin = tr_of b tin /\
    (b' = b \/ (init_at b' p = 0%N /\ bt_inhib (tr_of b tin) = false /\ (forall v, In v (bp_prod (pl_of b' p)) <-> In v (bp_prod (pl_of b p)) /\ v <> tout))).
Proof.
  intros inq rdl rc b p tin tout G Sk Qp Hcons Hni Ho Fr. assert (Hin : In tin (bp_cons (pl_of b p))) by (rewrite Hcons; left; reflexivity).
  unfold b_producer. destruct (@b_check_ok inq rdl rc b p tin tout G Hin Ho) as ([(mult & w)|] & E); rewrite E; cbn [bind].
  2: { right. exists b. split; [reflexivity|]. split; [exact G|]. split; [apply same_refl|]. split; [apply frame_refl|]. split; [apply same_flags_refl|]. split; [exact Fr|]. split; [exact Hcons|]. split; [reflexivity|]. left. reflexivity. }
  destruct (b_check_some _ _ _ _ _ _ G E) as (a & o & Ea & Eo & Ew & Wo & Hm & Hw & Ip & Ii & Io & Hq & Hcase).
  assert (Hne : tin <> tout) by (intros ->; contradiction).
  destruct (arc_cons _ _ G Ea) as (_ & Ha & Pa). destruct (arc_prod _ _ G Eo) as (_ & Hoa & Po).
  assert (Li : live b tin = true) by (apply (@arc_live b tin a G); left; exact Ha).
  assert (Lo : live b tout = true) by (apply (@arc_live b tout o G); right; exact Hoa).
  destruct (@b_merge_effect b p tin tout mult w G Hne Sk Ho Hni Li Ii Io Hm Hw) as [E1|(b' & E1 & G' & F & Fl & T & Tsk & Cp & Dp & I0 & Iq & Tk)]; [left; exact E1|].
  right. exists b'. split; [exact E1|]. split; [exact G'|].
  assert (Ia : arc_inhib a = false) by (apply (no_inh_t tin G Ii a Ha)).
  assert (Wi : wt (bt_pre (tr_of b tin)) p = w) by (unfold wt; fold (in_arc b p tin); rewrite Ea, Ia; congruence).
  assert (Wu : wt (bt_post (tr_of b tout)) p = (mult * w)%N) by (rewrite <- Wo; pose proof (a_out_of tout p G) as X; cbn [atr_of a_out] in X; rewrite X, Eo; reflexivity).
  assert (Z0 : wt (bt_post (tr_of b tin)) p = 0%N) by (apply wt_absent; [apply (g_spost G)|]; intros X; apply Hni; apply (g_prod G); exact X).
  assert (NIi : forall q, ih (bt_pre (tr_of b tin)) q = None).
  { intros q. unfold ih. destruct (get_arc (bt_pre (tr_of b tin)) q) as [x|] eqn:Ex; [|reflexivity]. apply get_arc_in in Ex. rewrite (no_inh_t tin G Ii x (proj1 Ex)). reflexivity. }
  assert (NIo : forall q, ih (bt_pre (tr_of b tout)) q = None).
  { intros q. unfold ih. destruct (get_arc (bt_pre (tr_of b tout)) q) as [x|] eqn:Ex; [|reflexivity]. apply get_arc_in in Ex. rewrite (no_inh_t tout G Io x (proj1 Ex)). reflexivity. }
  assert (Only : forall i t, an_tr (anet_of b) i = Some t -> a_inh t p = None /\ (i <> tin -> a_in t p = 0%N)).
  { intros i t Ht. split; [exact (no_inh_p p G Ip i Ht)|]. intros Hi. apply (cons_zero p i G Ht). rewrite Hcons. intros [X|[]]. congruence. }
  assert (Couts : forall q, a_out (atr_of (tr_of b tin)) q <> 0%N -> inq q = false /\ forall i t, an_tr (anet_of b) i = Some t -> a_inh t q = None).
  { intros q Hq0. cbn [atr_of a_out] in Hq0. destruct (@wt_in _ q (g_spost G tin) Hq0) as (x & Hx & <- & _). destruct (Hq x (or_introl Hx)) as (A & B). split; [exact B|]. intros i t Ht. exact (no_inh_p _ G A i Ht). }
  assert (Lv : forall i, live b' i = live b i).
  { intros i. unfold live. rewrite (f_nt F). destruct (Nat.eq_dec i tout) as [->|Hi]; [rewrite Tsk; reflexivity|rewrite (T i Hi); reflexivity]. }
  assert (Tr : forall i, aeq (if Nat.eqb i tout then taken p mult (atr_of (tr_of b tin)) (atr_of (tr_of b i)) else atr_of (tr_of b i)) (atr_of (tr_of b' i))).
  { intros i. destruct (Nat.eqb_spec i tout) as [->|Hi]; [exact Tk|]. rewrite (T i Hi). apply aeq_refl. }
  assert (T1 : forall i t', an_tr (anet_of b') i = Some t' -> exists t, an_tr (anet_of b) i = Some t /\ aeq (if Nat.eqb i tout then taken p mult (atr_of (tr_of b tin)) t else t) t').
  { intros i t' Ht'. apply live_tr in Ht'. destruct Ht' as (-> & Hl). rewrite Lv in Hl. exists (atr_of (tr_of b i)). split; [apply tr_live; exact Hl|apply Tr]. }
  assert (T2 : forall i t, an_tr (anet_of b) i = Some t -> exists t', an_tr (anet_of b') i = Some t' /\ aeq (if Nat.eqb i tout then taken p mult (atr_of (tr_of b tin)) t else t) t').
  { intros i t Ht. apply live_tr in Ht. destruct Ht as (-> & Hl). exists (atr_of (tr_of b' i)). split; [apply tr_live; rewrite Lv; exact Hl|apply Tr]. }
  pose proof (Fr tin a Hcons Ea) as Fr0.
  split; [|split; [exact F|split; [exact Fl|split; [|split; [rewrite Cp; exact Hcons|split; [apply T; exact Hne|]]]]]].
  - destruct Hcase as [L1|(L1 & J0 & Post & Pre)].
    + rewrite L1, Nat.eqb_refl in Fr0.
      assert (Cpre : forall q, q <> p -> wt (bt_pre (tr_of b tin)) q = 0%N).
      { intros q Hq0. destruct (bt_pre (tr_of b tin)) as [|y [|z l]]; try discriminate. destruct Ha as [->|[]]. apply wt_absent; [split; [intros ? []|exact I]|]. intros [X|[]]. congruence. }
      apply eager_same with (ic := tin) (iu := tout) (p0 := p) (c := atr_of (tr_of b tin)) (u := atr_of (tr_of b tout)) (w := w) (k := mult) (r := (init_at b p mod w)%N); try assumption.
      * apply tr_live. exact Li.
      * apply tr_live. exact Lo.
      * apply N.mod_lt. lia.
      * intros q Hq0. cbn [anet_of an_init]. rewrite (Iq q Hq0), (Cpre q Hq0). cbn [atr_of a_out]. lia.
      * reflexivity.
      * rewrite Ew in *. destruct Fr0 as [Fr0|Fr0]; [left; exact Fr0|right]. intros i t Ht. apply live_tr in Ht. destruct Ht as (-> & _). rewrite a_out_of by exact G. destruct (out_arc b i p) as [x|] eqn:Ex; [apply (Fr0 i x Ex)|apply N.mod_0_l; lia].
    + apply Nat.eqb_neq in L1. rewrite L1 in Fr0. destruct (Fr0 tout o Eo) as (Le & Fi).
      assert (M1 : mult = 1%N) by (rewrite <- Ew in Le; rewrite Wo in Le; nia).
      apply lazy_same with (ic := tin) (iu := tout) (p0 := p) (c := atr_of (tr_of b tin)) (u := atr_of (tr_of b tout)) (w := w) (k := mult); try assumption.
      * apply tr_live. exact Li.
      * apply tr_live. exact Lo.
      * intros q Hq0. cbn [atr_of a_out]. rewrite Post. apply wt_absent; [split; [intros ? []|exact I]|]. intros [X|[]]. congruence.
      * intros q. cbn [anet_of an_init]. destruct (Nat.eq_dec q p) as [->|Hq0]; [rewrite I0; exact J0|]. rewrite (Iq q Hq0), J0, N.div_0_l by lia. lia.
      * intros q Hq0. cbn [atr_of a_in] in Hq0. destruct (@wt_in _ q (g_spre G tout) Hq0) as (x & Hx & <- & _). split; [apply Pre; exact Hx|]. intros i t Ht. exact (no_inh_p _ G (Fi x Hx) i Ht).
  - intros tin' a' Hc' Ea'. assert (tin' = tin) by (rewrite Cp, Hcons in Hc'; congruence). subst tin'. unfold in_arc in Ea'. rewrite (T tin Hne) in *. fold (in_arc b p tin) in Ea'. rewrite Ea in Ea'. injection Ea' as <-.
    assert (Oa : forall u x, out_arc b' u p = Some x -> u <> tout /\ out_arc b u p = Some x).
    { intros u x Hx. destruct (arc_prod _ _ G' Hx) as (Hu & _). apply Dp in Hu. destruct Hu as (_ & Hu). split; [exact Hu|]. unfold out_arc in *. rewrite (T u Hu) in Hx. exact Hx. }
    destruct (length (bt_pre (tr_of b tin)) =? 1).
    + left. rewrite I0. apply N.mod_0_l. lia.
    + intros u x Hx. destruct (Oa u x Hx) as (Hu & Hx'). destruct (Fr0 u x Hx') as (A & B). split; [exact A|]. rewrite (T u Hu). intros y Hy. rewrite (proj2 (Fl _)). apply B. exact Hy.
  - right. split; [exact I0|]. split; [exact Ii|exact Dp].
Qed.

Lemma b_producers_ok : forall inq rdl rc p tin ps b, good b -> bp_skip (pl_of b p) = false -> inq p = false -> bp_cons (pl_of b p) = [tin] -> ~ In tin (bp_prod (pl_of b p)) -> NoDup ps -> (forall u, In u ps -> In u (bp_prod (pl_of b p))) -> b_fair b p ->
  fold_res (b_producer inq rdl rc p tin) ps b = Throw \/
  exists b', fold_res (b_producer inq rdl rc p tin) ps b = Ok b' /\ good b' /\ same inq (anet_of b) (anet_of b') /\ frame b b' /\ same_flags b b' /\
    bp_cons (pl_of b' p) = [tin] /\ tr_of b' tin = tr_of b tin /\
    (b' = b \/ (init_at b' p = 0%N /\ bt_inhib (tr_of b tin) = false)).
Proof.
  intros inq rdl rc p tin. induction ps as [|u ps IH]; intros b G Sk Qp Hcons Hni Nd Hps Fr.
  - right. exists b. split; [reflexivity|]. split; [exact G|]. split; [apply same_refl|]. split; [apply frame_refl|]. split; [apply same_flags_refl|]. split; [exact Hcons|]. split; [reflexivity|left; reflexivity].
  - cbn [fold_res]. destruct (@b_producer_ok inq rdl rc b p tin u G Sk Qp Hcons Hni (Hps u (or_introl eq_refl)) Fr) as [E|(b1 & E & G1 & S1 & F1 & Fl1 & Fr1 & C1 & T1 & D1)]; rewrite E; cbn [bind]; [left; reflexivity|].
    inversion Nd as [|x y N1 N2]; subst x y.
    destruct (IH b1 G1) as [E2|(b2 & E2 & G2 & S2 & F2 & Fl2 & C2 & T2 & D2)].
    + rewrite (proj1 (Fl1 p)). exact Sk.
    + exact Qp.
    + exact C1.
    + destruct D1 as [->|(_ & _ & D1)]; [exact Hni|]. intros X. apply D1 in X. apply Hni. apply X.
    + exact N2.
    + intros v Hv. destruct D1 as [->|(_ & _ & D1)]; [apply Hps; right; exact Hv|]. apply D1. split; [apply Hps; right; exact Hv|]. intros ->. contradiction.
    + exact Fr1.
    + left. exact E2.
    + right. exists b2. split; [exact E2|]. split; [exact G2|]. split; [eapply same_trans; eauto|]. split; [eapply frame_trans; eauto|]. split; [eapply same_flags_trans; eauto|]. split; [exact C2|]. split; [congruence|].
      destruct D2 as [->|(D2 & D3)]; [|right; rewrite <- T1; auto]. destruct D1 as [->|(D1 & D3 & D4)]; [left; reflexivity|right; auto].
Qed.

Theorem rule_b_ok : forall inq rdl rc b p, good b -> b_fair b p -> sound_result inq b (rule_b inq rdl rc b p).
Proof.
  intros inq rdl rc b p G Fr. unfold rule_b. cbv zeta. destruct (bp_skip (pl_of b p)) eqn:Sk; [apply result_refl; exact G|]. destruct (inq p) eqn:Qp; [apply result_refl; exact G|]. cbn [orb].
  destruct (bp_cons (pl_of b p)) as [|tin [|z l]] eqn:Hcons; try (apply result_refl; exact G).
  destruct (bp_prod (pl_of b p)) as [|u0 us] eqn:Hprod; [apply result_refl; exact G|]. rewrite <- Hprod.
  destruct (existsb (Nat.eqb tin) (bp_prod (pl_of b p))) eqn:Hx; [apply result_refl; exact G|].
  assert (Hni : ~ In tin (bp_prod (pl_of b p))) by (intros X; apply existsb_in in X; congruence).
  destruct (@b_producers_ok inq rdl rc p tin (bp_prod (pl_of b p)) b G Sk Qp Hcons Hni (sorted_nodup _ (g_sprod G p)) ltac:(auto) Fr) as [E|(b1 & E & G1 & S1 & F1 & Fl1 & C1 & T1 & D1)]; rewrite E; cbn [bind]; [exact I|].
  destruct (bp_prod (pl_of b1 p)) as [|v vs] eqn:Hp1; [|apply result_same; assumption].
  destruct D1 as [->|(I0 & Ii)]; [congruence|].
  assert (Sk1 : bp_skip (pl_of b1 p) = false) by (rewrite (proj1 (Fl1 p)); exact Sk).
  destruct (@skip_place_ok b1 p G1 Sk1) as (b2 & E2 & G2 & F2 & I2 & P2 & _ & _ & T2). rewrite E2. cbn [bind].
  assert (Hin1 : In tin (bp_cons (pl_of b1 p))) by (rewrite C1; left; reflexivity).
  destruct (cons_arc p tin G1 Hin1) as (a & Ea & Ha & Pa). assert (L1 : live b1 tin = true) by (apply (@arc_live b1 tin a G1); left; exact Ha).
  assert (L2 : tin < length (b_trans b2) /\ bt_skip (tr_of b2 tin) = false) by (apply live_spec in L1; rewrite (f_nt F2), T2; exact L1).
  destruct (@skip_transition_ok b2 tin G2 (proj1 L2) (proj2 L2)) as (b3 & E3 & G3 & F3 & I3 & Fl3 & T3). rewrite E3. apply result_same; [exact G|exact G3|]. eapply same_trans; [exact S1|].
  (* the consumer is dead; without it nothing looks at the place *)
  set (NX := mkAnet (an_init (anet_of b1)) (fun i => if Nat.eqb i tin then None else an_tr (anet_of b1) i)).
  assert (Zp : forall i t, an_tr (anet_of b1) i = Some t -> a_out t p = 0%N).
  { intros i t Ht. apply live_tr in Ht. destruct Ht as (-> & _). rewrite a_out_of by exact G1. destruct (out_arc b1 i p) as [x|] eqn:Ex; [|reflexivity]. destruct (arc_prod _ _ G1 Ex) as (X & _). rewrite Hp1 in X. destruct X. }
  assert (Em : forall m, areach (anet_of b1) m -> m p = 0%N).
  { apply areach_ind; [intros m X; rewrite (X p); exact I0|]. intros m i t m1 _ IH Ht En X. rewrite X. unfold afire. rewrite (Zp i t Ht), IH. lia. }
  apply same_trans with (B := NX).
  - apply drop_dead; [apply ext_refl| |].
    + intros i t Ht. cbn in Ht. destruct (Nat.eqb i tin); [discriminate|exact Ht].
    + intros m i t Hm Ht En. cbn [NX an_tr]. destruct (Nat.eqb_spec i tin) as [->|Hi]; [|exact Ht]. exfalso. apply live_tr in Ht. destruct Ht as (-> & _). destruct (En p) as (En1 & _). rewrite (Em m Hm), a_in_of, Ea in En1.
      rewrite T1 in Ha. assert (Ia : arc_inhib a = false) by (apply (no_inh_t tin G Ii a Ha)). rewrite Ia in En1. destruct (g_pre G tin a Ha) as (_ & W & _). lia.
  - assert (A3 : forall i, an_tr (anet_of b3) i = if Nat.eqb i tin then None else an_tr (anet_of b2) i) by (eapply anet_skip_t; eauto).
    destruct (@anet_skip_p b1 b2 p G1 F2 T2) as (A & B). apply drop_place with (p0 := p).
    + exact Qp.
    + intros q _. cbn. unfold init_at. rewrite I3, I2. reflexivity.
    + intros i t' Ht'. rewrite A3 in Ht'. cbn [NX an_tr]. destruct (Nat.eqb i tin); [discriminate|]. apply A. exact Ht'.
    + intros i t Ht. rewrite A3. cbn [NX an_tr] in Ht. destruct (Nat.eqb i tin); [discriminate|]. apply B. exact Ht.
    + intros m i t _ Ht En q. cbn [NX an_tr] in Ht. destruct (Nat.eqb_spec i tin) as [|Hi]; [discriminate|]. specialize (En q). cbn [without a_in a_inh] in En. destruct (Nat.eqb_spec q p) as [Eq|_]; [rewrite Eq|exact En].
      assert (Nc : ~ In i (bp_cons (pl_of b1 p))) by (rewrite C1; intros [X|[]]; congruence). rewrite (cons_zero p i G1 Ht Nc). split; [lia|].
      apply live_tr in Ht. destruct Ht as (-> & _). intros w Hw. exfalso. cbn [atr_of a_inh] in Hw. unfold ih in Hw. fold (in_arc b1 p i) in Hw. rewrite (proj2 (in_arc_none p i G1) Nc) in Hw. discriminate.
Qed.
