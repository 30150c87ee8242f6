(** Rule A: a transition with one input place of its own is agglomerated into its producers. *)
From Verif Require Import Base BaseLemmas NetSpec NetModel BuilderModel RedTheory RedSpec RedModel RedProofs RedNet RedRules RedRuleJ RedAgg RedOps.
Set Implicit Arguments.

Lemma wt_plus : forall l p w q, srt l -> (forall a, In a l -> arc_inhib a = false) -> wt (plus_arc l p w) q = (wt l q + if Nat.eqb q p then w else 0)%N.
Proof.
  intros l p w q Hs Hi. unfold wt. rewrite get_plus by exact Hs. destruct (Nat.eqb_spec q p) as [->|_]; [|lia]. destruct (get_arc l p) as [a|] eqn:E; cbn [arc_inhib arc_weight]; [|reflexivity].
  apply get_arc_in in E. destruct E as (A & _). rewrite (Hi a A). reflexivity.
Qed.
Record same_but_post (x y : btrans) : Prop := { sp_pre : bt_pre y = bt_pre x; sp_skip : bt_skip y = bt_skip x; sp_inh : bt_inhib y = bt_inhib x }.
Lemma sbp_refl : forall x, same_but_post x x.
Proof. intros x. constructor; reflexivity. Qed.
Lemma sbp_trans : forall x y z, same_but_post x y -> same_but_post y z -> same_but_post x z.
Proof. intros x y z [A B C] [A' B' C']. constructor; congruence. Qed.

Lemma add_outs : forall (f : arc -> N) c u l b, good b -> live b u = true -> (0 < c)%N -> srt l ->
  (forall a, In a l -> f a = (c * arc_weight a)%N /\ (0 < arc_weight a)%N /\ arc_inhib a = false /\ bp_skip (pl_of b (arc_place a)) = false) ->
  fold_res (fun b a => add_out b u (arc_place a) (f a)) l b = Throw \/
  exists b', fold_res (fun b a => add_out b u (arc_place a) (f a)) l b = Ok b' /\ good b' /\ frame b b' /\ b_init b' = b_init b /\ same_flags b b' /\
    (forall v, v <> u -> tr_of b' v = tr_of b v) /\ same_but_post (tr_of b u) (tr_of b' u) /\
    (forall q, wt (bt_post (tr_of b' u)) q = wt (bt_post (tr_of b u)) q + c * wt l q)%N /\
    (forall q, bp_cons (pl_of b' q) = bp_cons (pl_of b q)) /\ (forall q, ~ In q (map arc_place l) -> pl_of b' q = pl_of b q).
Proof.
  intros f c u. induction l as [|a l IH]; intros b G Lv Hc Hs H.
  - right. exists b. split; [reflexivity|]. split; [exact G|]. split; [apply frame_refl|]. split; [reflexivity|]. split; [apply same_flags_refl|]. split; [reflexivity|]. split; [apply sbp_refl|]. split; [intros q; cbn; lia|split; reflexivity].
  - cbn [fold_res]. destruct (H a (or_introl eq_refl)) as (Hf & Hw & Hi & Hp). pose proof Hs as (A & B).
    destruct (@add_out_ok b u (arc_place a) (f a) G Lv Hp ltac:(rewrite Hf; nia)) as [E|(b1 & E & G1 & F1 & I1 & Fl1 & T1 & P1 & C1)]; rewrite E; cbn [bind]; [left; reflexivity|].
    assert (Lv1 : live b1 u = true) by (apply live_spec in Lv; apply live_spec; rewrite (f_nt F1), T1, Nat.eqb_refl; exact Lv).
    destruct (IH b1 G1 Lv1 Hc B) as [E2|(b' & E2 & G2 & F2 & I2 & Fl2 & T2 & S2 & W2 & C2 & P2)].
    + intros a' Ha'. destruct (H a' (or_intror Ha')) as (K1 & K2 & K3 & K4). rewrite (proj1 (Fl1 _)). auto.
    + left. exact E2.
    + right. exists b'. split; [exact E2|]. split; [exact G2|]. split; [eapply frame_trans; eauto|]. split; [congruence|]. split; [eapply same_flags_trans; eauto|].
      split; [intros v Hv; rewrite (T2 v Hv), T1; destruct (Nat.eqb_spec v u); [contradiction|reflexivity]|].
      split; [eapply sbp_trans; [|exact S2]; rewrite T1, Nat.eqb_refl; constructor; reflexivity|].
      split; [|split].
      * intros q. rewrite W2, T1, Nat.eqb_refl. cbn [with_post bt_post]. rewrite wt_plus; [|apply (g_spost G)|intros x Hx; apply (g_post G u x Hx)]. rewrite wt_cons by exact Hs. rewrite Hi, Hf, (Nat.eqb_sym q).
        destruct (Nat.eqb_spec (arc_place a) q) as [<-|_]; [|lia]. rewrite (@wt_absent l (arc_place a) B); [lia|]. intros Hin. specialize (A _ Hin). lia.
      * intros q. rewrite C2. destruct (Nat.eq_dec q (arc_place a)) as [->|Hq]; [exact C1|rewrite (P1 q Hq); reflexivity].
      * intros q Hq. rewrite P2, P1; [reflexivity| |]; intros X; apply Hq; [left; auto|right; exact X].
Qed.

Definition a_step (pPre : nat) (w : N) (l : list arc) (b : builder) (u : nat) : res builder :=
  src <- some (out_arc b u pPre) ;;
  fold_res (fun b a => add_out b u (arc_place a) ((arc_weight src / w) * arc_weight a)) l b.
Lemma a_steps : forall pPre w l ps b, good b -> (0 < w)%N -> srt l -> NoDup ps ->
  (forall a, In a l -> (0 < arc_weight a)%N /\ arc_inhib a = false /\ bp_skip (pl_of b (arc_place a)) = false) ->
  (forall u, In u ps -> exists a, out_arc b u pPre = Some a /\ (arc_weight a mod w = 0)%N) -> ~ In pPre (map arc_place l) ->
  fold_res (a_step pPre w l) ps b = Throw \/
  exists b', fold_res (a_step pPre w l) ps b = Ok b' /\ good b' /\ frame b b' /\ b_init b' = b_init b /\ same_flags b b' /\
    (forall v, same_but_post (tr_of b v) (tr_of b' v)) /\
    (forall v q, wt (bt_post (tr_of b' v)) q = wt (bt_post (tr_of b v)) q + (if existsb (Nat.eqb v) ps then (wt (bt_post (tr_of b v)) pPre / w) * wt l q else 0))%N.
Proof.
  intros pPre w l. induction ps as [|u ps IH]; intros b G Hw Hs Hnd Hl Hps Hni.
  - right. exists b. split; [reflexivity|]. split; [exact G|]. split; [apply frame_refl|]. split; [reflexivity|]. split; [apply same_flags_refl|]. split; [intros v; apply sbp_refl|]. intros v q. cbn. lia.
  - cbn [fold_res]. unfold a_step at 1 3. destruct (Hps u (or_introl eq_refl)) as (src & E & M). rewrite E. cbn [some bind].
    destruct (arc_prod _ _ G E) as (Hu & Ha & Hpl). destruct (g_post G u src Ha) as (_ & Hws & Hwi). destruct (@div_pos w (arc_weight src) Hw Hws) as (Dp & _); [apply N.mod_divide; [lia|exact M]|].
    assert (Lv : live b u = true) by (apply (@arc_live b u src G); right; exact Ha).
    destruct (@add_outs (fun a => (arc_weight src / w) * arc_weight a)%N (arc_weight src / w) u l b G Lv Dp Hs) as [E1|(b1 & E1 & G1 & F1 & I1 & Fl1 & T1 & S1 & W1 & _)].
    { intros a Ha'. destruct (Hl a Ha') as (K1 & K2 & K3). auto. }
    { rewrite E1. left. reflexivity. }
    rewrite E1. cbn [bind]. inversion Hnd as [|x y N1 N2]; subst x y.
    destruct (IH b1 G1 Hw Hs N2) as [E2|(b' & E2 & G2 & F2 & I2 & Fl2 & S2 & W2)].
    + intros a Ha'. rewrite (proj1 (Fl1 _)). apply Hl. exact Ha'.
    + intros v Hv. unfold out_arc. rewrite T1; [|intros ->; contradiction]. apply Hps. right. exact Hv.
    + exact Hni.
    + left. exact E2.
    + right. exists b'. split; [exact E2|]. split; [exact G2|]. split; [eapply frame_trans; eauto|]. split; [congruence|]. split; [eapply same_flags_trans; eauto|]. split.
      * intros v. eapply sbp_trans; [|apply S2]. destruct (Nat.eq_dec v u) as [->|Hv]; [exact S1|rewrite (T1 v Hv); apply sbp_refl].
      * intros v q. rewrite W2. cbn [existsb]. destruct (Nat.eqb_spec v u) as [->|Hv]; cbn [orb]; [|rewrite (T1 v Hv); reflexivity].
        destruct (existsb (Nat.eqb u) ps) eqn:Ex; [apply existsb_in in Ex; contradiction|]. rewrite W1. assert (Y : wt (bt_post (tr_of b u)) pPre = arc_weight src) by (unfold wt; fold (out_arc b u pPre); rewrite E, Hwi; reflexivity).
        rewrite Y. lia.
Qed.

Theorem rule_a_ok : forall inq b t, good b -> sound_result inq b (rule_a inq b t).
Proof.
  intros inq b t G. unfold rule_a. destruct (bt_skip (tr_of b t)) eqn:Sk; [apply result_refl; exact G|].
  destruct (bt_pre (tr_of b t)) as [|a0 [|a1 l1]] eqn:Pr; try (apply result_refl; exact G).
  set (p := arc_place a0). set (w := arc_weight a0).
  assert (Ha0 : In a0 (bt_pre (tr_of b t))) by (rewrite Pr; left; reflexivity).
  destruct (g_pre G t a0 Ha0) as (Hp & Hw & _). fold p in Hp. fold w in Hw.
  destruct (length (bp_cons (pl_of b p)) =? 1) eqn:Ec; cbn [negb]; [apply Nat.eqb_eq in Ec|apply result_refl; exact G].
  destruct (N.eqb_spec w 0) as [Z|_]; [lia|].
  destruct (@all_res_ok _ (fun u => a <- some (out_arc b u p) ;; Ok (arc_weight a mod w =? 0)%N) (bp_prod (pl_of b p))) as (ok & Eok).
  { intros u Hu. destruct (prod_arc p u G Hu) as (a & Ea & _). rewrite Ea. cbn [some bind]. eexists. reflexivity. }
  rewrite Eok. cbn [bind]. destruct ok; cbn [negb]; [|apply result_refl; exact G].
  assert (Hmod : forall u, In u (bp_prod (pl_of b p)) -> exists a, out_arc b u p = Some a /\ (arc_weight a mod w = 0)%N).
  { intros u Hu. pose proof (all_res_true _ _ Eok u Hu) as X. cbn beta in X. destruct (out_arc b u p) as [a|]; [|discriminate]. cbn [some bind] in X. injection X as X. apply N.eqb_eq in X. exists a. auto. }
  destruct (bp_inhib (pl_of b p)) eqn:Ip; [apply result_refl; exact G|]. destruct (bt_inhib (tr_of b t)) eqn:It; [apply result_refl; exact G|]. cbn [orb].
  destruct (inq p) eqn:Qp; [apply result_refl; exact G|].
  set (post := bt_post (tr_of b t)).
  destruct (existsb _ post) eqn:Ep; [apply result_refl; exact G|].
  assert (Hpost : forall a, In a post -> bp_inhib (pl_of b (arc_place a)) = false /\ p <> arc_place a /\ inq (arc_place a) = false).
  { intros a Ha. assert (X : (bp_inhib (pl_of b (arc_place a)) || Nat.eqb p (arc_place a) || inq (arc_place a)) = false).
    { destruct (bp_inhib (pl_of b (arc_place a)) || Nat.eqb p (arc_place a) || inq (arc_place a)) eqn:Y; [|reflexivity]. rewrite <- Ep. symmetry. apply existsb_exists. exists a. split; [exact Ha|exact Y]. }
    apply orb_false_iff in X. destruct X as (X & X3). apply orb_false_iff in X. destruct X as (X1 & X2). apply Nat.eqb_neq in X2. auto. }
  clear Ep. cbv zeta.
  assert (Lv : live b t = true) by (apply (@arc_live b t a0 G); left; exact Ha0).
  assert (Rg : forall q, bp_skip (pl_of b q) = false -> q < length (b_init b)) by (intros q Hq; rewrite (g_ni G), <- (g_np G); apply pl_range; exact Hq).
  destruct (@add_inits (fun a => (init_at b p / w) * arc_weight a)%N (init_at b p / w) post b) as [E1|(b1 & E1 & O1 & V1)]; [|apply (g_spost G)| |].
  { intros a Ha. destruct (g_post G t a Ha) as (K1 & K2 & K3). split; [reflexivity|]. split; [exact K3|apply Rg; exact K1]. }
  { rewrite E1. exact I. }
  rewrite E1. cbn [bind]. set (b2 := set_init b1 p 0).
  pose proof (only_init_trans O1 (only_init_set b1 p 0%N)) as O2. fold b2 in O2. pose proof (only_init_good G O2) as G2. destruct (only_init_places O2) as (P2 & T2).
  assert (V2 : forall q, q <> p -> init_at b2 q = (init_at b q + (init_at b p / w) * wt post q)%N).
  { intros q Hq. unfold b2. rewrite init_set by (rewrite (oi_len O1); apply Rg; exact Hp). destruct (Nat.eqb_spec q p); [contradiction|]. apply V1. }
  assert (Lv2 : t < length (b_trans b2) /\ bt_skip (tr_of b2 t) = false) by (rewrite T2, (oi_tr O2); apply live_spec; exact Lv).
  destruct (skip_transition_ok G2 (proj1 Lv2) (proj2 Lv2)) as (b3 & E3 & G3 & F3 & I3 & Fl3 & T3). rewrite E3. cbn [bind].
  change (fun (b : builder) (u : nat) => src <- some (out_arc b u p) ;; fold_res (fun b a => add_out b u (arc_place a) ((arc_weight src / w) * arc_weight a)) post b) with (a_step p w post).
  assert (T3' : forall v, v <> t -> tr_of b3 v = tr_of b v) by (intros v Hv; rewrite T3; destruct (Nat.eqb_spec v t); [contradiction|apply T2]).
  assert (Fl : same_flags b b3) by (intros q; destruct (Fl3 q) as (A1 & A2); rewrite A1, A2, P2; split; reflexivity).
  assert (Np : ~ In p (map arc_place post)) by (intros X; apply in_map_iff in X; destruct X as (a & X1 & X2); destruct (Hpost a X2) as (_ & X3 & _); congruence).
  assert (Pd : forall u, In u (bp_prod (pl_of b3 p)) -> u <> t /\ In u (bp_prod (pl_of b p))).
  { intros u Hu. apply (g_prod G3) in Hu. rewrite T3 in Hu. destruct (Nat.eqb_spec u t) as [Eu|Hn]; [destruct Hu|]. split; [exact Hn|]. apply (g_prod G). rewrite T2 in Hu. exact Hu. }
  destruct (@a_steps p w post (bp_prod (pl_of b3 p)) b3 G3 Hw (g_spost G t) (sorted_nodup _ (g_sprod G3 p))) as [E4|(b4 & E4 & G4 & F4 & I4 & Fl4 & S4 & W4)].
  { intros a Ha. destruct (g_post G t a Ha) as (K1 & K2 & K3). rewrite (proj1 (Fl _)). auto. }
  { intros u Hu. destruct (Pd u Hu) as (Hn & Hu'). unfold out_arc. rewrite (T3' u Hn). apply Hmod. exact Hu'. }
  { exact Np. }
  { rewrite E4. exact I. }
  rewrite E4. cbn [bind].
  assert (Fl' : same_flags b b4) by (eapply same_flags_trans; eauto).
  destruct (@skip_place_ok b4 p G4) as (b5 & E5 & G5 & F5 & I5 & P5 & _ & _ & T5); [rewrite (proj1 (Fl' p)); exact Hp|].
  rewrite E5. apply result_same; [exact G|exact G5|].
  assert (Ft : frame b b5).
  { eapply frame_trans; [|exact F5]. eapply frame_trans; [|exact F4]. eapply frame_trans; [|exact F3]. constructor; rewrite ?(oi_pn O2), ?(oi_tn O2), ?(oi_tr O2), ?(oi_pl O2); reflexivity. }
  assert (Lt5 : live b5 t = false) by (unfold live; rewrite T5; unfold noplace; cbn [bt_skip]; rewrite (sp_skip (S4 t)), T3, Nat.eqb_refl; cbn; apply andb_false_r).
  assert (Lo5 : forall v, v <> t -> live b5 v = live b v).
  { intros v Hv. unfold live. rewrite (f_nt Ft), T5. unfold noplace. cbn [bt_skip]. rewrite (sp_skip (S4 v)), (T3' v Hv). reflexivity. }
  assert (M : forall v, v <> t -> aeq (merged p w (atr_of (tr_of b t)) (atr_of (tr_of b v))) (atr_of (tr_of b5 v))).
  { intros v Hv. rewrite T5. pose proof (without_noplace p v G4) as (X1 & X2 & X3).
    assert (Nc : get_arc (bt_pre (tr_of b v)) p = None).
    { apply (proj2 (in_arc_none p v G)). intros Hc. apply Hv. apply (@single _ t v Ec); [apply (g_cons G); unfold p; apply in_map; exact Ha0|exact Hc]. }
    split; [|split]; intros q; rewrite <- ?X1, <- ?X2, <- ?X3; cbn [without merged a_in a_out a_inh atr_of].
    - rewrite (sp_pre (S4 v)), (T3' v Hv). destruct (Nat.eqb_spec q p) as [->|_]; [unfold wt; rewrite Nc; reflexivity|reflexivity].
    - destruct (Nat.eqb_spec q p) as [->|Hq]; [reflexivity|]. rewrite W4, (T3' v Hv). fold post. destruct (existsb (Nat.eqb v) (bp_prod (pl_of b3 p))) eqn:Ex; [reflexivity|].
      assert (Nv : wt (bt_post (tr_of b v)) p = 0%N); [|rewrite Nv, N.div_0_l by lia; lia].
      apply wt_absent; [apply (g_spost G)|]. intros Hin. assert (Y : existsb (Nat.eqb v) (bp_prod (pl_of b3 p)) = true); [|congruence]. apply existsb_in. apply (g_prod G3). rewrite (T3' v Hv). exact Hin.
    - rewrite (sp_pre (S4 v)), (T3' v Hv). destruct (Nat.eqb_spec q p) as [->|_]; [unfold ih; rewrite Nc; reflexivity|reflexivity]. }
  apply post_agglomerate with (i0 := t) (t0 := atr_of (tr_of b t)) (p0 := p) (w := w).
  - exact Hw.
  - apply tr_live. exact Lv.
  - intros q v Hv. destruct (a_inh_flag t q G Hv). congruence.
  - intros q. cbn [atr_of a_in]. rewrite Pr. unfold wt. cbn [get_arc]. fold p. rewrite (Nat.eqb_sym q). assert (Ii : arc_inhib a0 = false) by (apply (@no_inh_t b t G It a0 Ha0)).
    destruct (Nat.ltb_spec p q) as [L|L]; destruct (Nat.eqb_spec p q) as [Eq|Eq]; try lia; rewrite ?Ii; reflexivity.
  - apply wt_absent; [apply (g_spost G)|exact Np].
  - exact Qp.
  - intros i x Hx. split; [apply (@no_inh_p b p G Ip i x Hx)|]. split.
    + apply live_tr in Hx. destruct Hx as (-> & _). rewrite (a_out_of i p G). destruct (out_arc b i p) as [a|] eqn:E; [|apply N.mod_0_l; lia]. destruct (arc_prod _ _ G E) as (Hi & _). destruct (Hmod i Hi) as (a' & E' & X). congruence.
    + intros Hi. apply (@cons_zero b p i x G Hx). intros Hc. apply Hi. apply (@single _ t i Ec); [apply (g_cons G); unfold p; apply in_map; exact Ha0|exact Hc].
  - intros q Hq. destruct (@wt_in post q (g_spost G t) Hq) as (a & A1 & A2 & _). subst q. destruct (Hpost a A1) as (K1 & K2 & K3). split; [exact K3|]. intros i x Hx. apply (@no_inh_p b (arc_place a) G K1 i x Hx).
  - intros q Hq. cbn [anet_of an_init]. unfold init_at at 1. rewrite I5, I4, I3. apply V2. exact Hq.
  - cbn. rewrite Lt5. reflexivity.
  - intros i t' H. destruct (live_tr _ _ H) as (-> & L). assert (Hi : i <> t) by (intros ->; congruence). exists (atr_of (tr_of b i)). split; [apply tr_live; rewrite <- (Lo5 i Hi); exact L|apply M; exact Hi].
  - intros i x H Hi. destruct (live_tr _ _ H) as (-> & L). exists (atr_of (tr_of b5 i)). split; [apply tr_live; rewrite (Lo5 i Hi); exact L|apply M; exact Hi].
Qed.
