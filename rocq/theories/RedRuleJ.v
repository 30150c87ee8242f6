(** Rule J. *)
From Verif Require Import Base BaseLemmas NetSpec NetModel BuilderModel RedTheory RedSpec RedModel RedProofs RedNet RedRules.
Set Implicit Arguments.

(** ** A change of weights keeps the builder consistent *)
Definition alike (l l' : list arc) : Prop :=
  map arc_place l' = map arc_place l /\ (forall a', In a' l' -> exists a, In a l /\ arc_place a' = arc_place a /\ arc_inhib a' = arc_inhib a) /\ (forall a, In a l' -> (0 < arc_weight a)%N).
Lemma good_reweigh : forall b b', good b -> frame b b' -> length (b_init b') = length (b_init b) -> (forall p, pl_of b' p = pl_of b p) ->
  (forall u, bt_skip (tr_of b' u) = bt_skip (tr_of b u) /\ bt_inhib (tr_of b' u) = bt_inhib (tr_of b u) /\
     alike (bt_pre (tr_of b u)) (bt_pre (tr_of b' u)) /\ alike (bt_post (tr_of b u)) (bt_post (tr_of b' u))) -> good b'.
Proof.
  intros b b' G F L P H. eapply good_intro; [exact G|exact F|exact L| | | | | | |].
  - intros t Hs. destruct (H t) as (A & _ & (B & _) & (C & _)). rewrite A in Hs. destruct (g_skip G t Hs) as (D & E). rewrite D in B. rewrite E in C. split; [apply map_eq_nil in B; exact B|apply map_eq_nil in C; exact C].
  - intros t a Ha. destruct (H t) as (_ & Fi & (B & C & D) & _). destruct (C a Ha) as (a0 & Ha0 & E1 & E2). destruct (g_pre G t a0 Ha0) as (X & Y & Z). rewrite P, Fi, E1, E2. split; [exact X|]. split; [apply D; exact Ha|exact Z].
  - intros t a Ha. destruct (H t) as (_ & Fi & _ & (B & C & D)). destruct (C a Ha) as (a0 & Ha0 & E1 & E2). destruct (g_post G t a0 Ha0) as (X & Y & Z). rewrite P, E1, E2. split; [exact X|]. split; [apply D; exact Ha|exact Z].
  - intros t. destruct (H t) as (_ & _ & (B & _) & (C & _)). unfold srt. rewrite B, C. split; [apply (g_spre G)|apply (g_spost G)].
  - intros p. rewrite P. split; [apply (g_scons G)|apply (g_sprod G)].
  - intros p t. destruct (H t) as (_ & _ & (B & _) & _). rewrite P, B. apply (g_cons G).
  - intros p t. destruct (H t) as (_ & _ & _ & (B & _)). rewrite P, B. apply (g_prod G).
Qed.
Lemma alike_refl : forall l, (forall a, In a l -> (0 < arc_weight a)%N) -> alike l l.
Proof. intros l H. split; [reflexivity|]. split; [intros a Ha; exists a; auto|exact H]. Qed.
Lemma alike_set : forall l p w, srt l -> (forall a, In a l -> (0 < arc_weight a)%N) -> (0 < w)%N -> alike l (set_weight l p w).
Proof.
  intros l p w S H Hw. split; [apply set_weight_places|]. split.
  - intros a Ha. apply set_weight_in in Ha; [|exact S]. destruct Ha as [(A & _)|(A & _ & a0 & B & C & D)]; [exists a; auto|exists a0; split; [exact B|split; [congruence|exact D]]].
  - intros a Ha. apply set_weight_in in Ha; [|exact S]. destruct Ha as [(A & _)|(_ & -> & _)]; [apply H; exact A|exact Hw].
Qed.
Lemma good_pos_pre : forall b t, good b -> forall a, In a (bt_pre (tr_of b t)) -> (0 < arc_weight a)%N.
Proof. intros b t G a Ha. apply (g_pre G t a Ha). Qed.
Lemma good_pos_post : forall b t, good b -> forall a, In a (bt_post (tr_of b t)) -> (0 < arc_weight a)%N.
Proof. intros b t G a Ha. apply (g_post G t a Ha). Qed.

(** ** The greatest common divisor *)
Lemma j_gcd_ok : forall get l m, (forall t, In t l -> exists a, get t = Some a /\ (0 < arc_weight a < no_mod)%N) -> (0 < m)%N ->
  exists g, j_gcd get l m = Ok g /\ (0 < g)%N /\
    (g <> 1%N -> (forall t a, In t l -> get t = Some a -> (g | arc_weight a)%N) /\ (m <> no_mod -> (g | m)%N) /\ (m = no_mod -> l <> [] -> (g < no_mod)%N) /\ ((m < no_mod)%N -> (g < no_mod)%N) /\ (l = [] -> g = m)).
Proof.
  intros get. induction l as [|t l IH]; intros m H Hm.
  - exists m. cbn. split; [reflexivity|]. split; [exact Hm|]. intros _. split; [intros t a []|]. split; [intros _; apply N.divide_refl|]. split; [congruence|]. split; [auto|auto].
  - destruct (H t (or_introl eq_refl)) as (a & Ea & Wa & Wb). cbn [j_gcd]. rewrite Ea. cbn [some bind].
    set (m' := if (m =? no_mod)%N then arc_weight a else N.gcd m (arc_weight a)).
    assert (Dw : (m' | arc_weight a)%N) by (unfold m'; destruct (m =? no_mod)%N; [apply N.divide_refl|apply N.gcd_divide_r]).
    assert (Dm : m <> no_mod -> (m' | m)%N) by (intros Hn; unfold m'; destruct (N.eqb_spec m no_mod); [contradiction|apply N.gcd_divide_l]).
    assert (P : (0 < m' < no_mod)%N). { pose proof (N.divide_pos_le _ _ Wa Dw). destruct Dw as (k & Hk). assert (m' <> 0)%N by (intros Z; rewrite Z in Hk; lia). lia. }
    clearbody m'. destruct (N.eqb_spec m' 1) as [E1|E1].
    + exists 1%N. split; [reflexivity|]. split; [lia|congruence].
    + destruct (IH m') as (g & Eg & Gp & Gd); [intros u Hu; apply H; right; exact Hu|lia|]. exists g. split; [exact Eg|]. split; [exact Gp|].
      intros G1. destruct (Gd G1) as (Gd1 & Gd2 & Gd3 & Gd4 & Gd5). assert (Gm : (g | m')%N) by (apply Gd2; lia). split.
      * intros u x [<-|Hu] Hx; [|eapply Gd1; eauto]. rewrite Ea in Hx. injection Hx as <-. eapply N.divide_trans; eauto.
      * split; [intros Hn; eapply N.divide_trans; [exact Gm|apply Dm; exact Hn]|]. split; [intros _ _; apply Gd4; lia|]. split; [intros _; apply Gd4; lia|discriminate].
Qed.
Lemma div_pos : forall g w, (0 < g)%N -> (0 < w)%N -> (g | w)%N -> (0 < w / g)%N /\ (w mod g = 0)%N.
Proof.
  intros g w Hg Hw D. assert (M : (w mod g = 0)%N) by (apply N.mod_divide; [lia|exact D]). split; [|exact M].
  pose proof (N.div_mod w g ltac:(lia)). rewrite M in H. destruct (N.eq_dec (w / g) 0) as [Z|Z]; [rewrite Z in H; lia|lia].
Qed.

(** ** The loops that divide *)
Definition div_pre (p : nat) (g : N) (x : btrans) : btrans :=
  match get_arc (bt_pre x) p with Some a => with_pre x (set_weight (bt_pre x) p (arc_weight a / g)) | None => x end.
Definition div_post (p : nat) (g : N) (x : btrans) : btrans :=
  match get_arc (bt_post x) p with Some a => with_post x (set_weight (bt_post x) p (arc_weight a / g)) | None => x end.
Lemma j_ins : forall p g l b, NoDup l -> (forall t, In t l -> exists a, in_arc b p t = Some a) ->
  exists b', fold_res (j_in p g) l b = Ok b' /\ frame b b' /\ b_init b' = b_init b /\ b_places b' = b_places b /\
    (forall u, tr_of b' u = if existsb (Nat.eqb u) l then div_pre p g (tr_of b u) else tr_of b u).
Proof.
  intros p g. induction l as [|t l IH]; intros b Hnd H.
  - exists b. split; [reflexivity|]. split; [apply frame_refl|]. auto.
  - inversion Hnd as [|x y H1 H2]; subst. destruct (H t (or_introl eq_refl)) as (a & Ea). cbn [fold_res]. unfold j_in at 1. rewrite Ea. cbn [some bind].
    assert (Ht : t < length (b_trans b)) by (apply get_arc_in in Ea; destruct Ea as (Ea & _); eapply in_pre_range; exact Ea).
    set (b1 := set_tr b t _). assert (T1 : forall u, tr_of b1 u = if Nat.eqb u t then div_pre p g (tr_of b t) else tr_of b u).
    { intros u. unfold b1. rewrite tr_set by exact Ht. unfold div_pre. unfold in_arc in Ea. rewrite Ea. reflexivity. }
    destruct (IH b1 H2) as (b' & E & F & I & P & T).
    + intros u Hu. destruct (H u (or_intror Hu)) as (a' & Ea'). exists a'. unfold in_arc. rewrite T1. destruct (Nat.eqb_spec u t); [subst u; contradiction|exact Ea'].
    + exists b'. split; [exact E|]. split; [eapply frame_trans; [apply frame_set_tr|exact F]|]. split; [exact I|]. split; [exact P|].
      intros u. rewrite T, T1. cbn [existsb]. destruct (Nat.eqb_spec u t) as [Eu|Hu]; [subst u|reflexivity]. cbn [orb]. destruct (existsb (Nat.eqb t) l) eqn:Ex; [|reflexivity].
      apply existsb_in in Ex. contradiction.
Qed.
Lemma j_outs : forall p g l b, NoDup l -> (forall t, In t l -> exists a, out_arc b t p = Some a) ->
  exists b', fold_res (j_out p g) l b = Ok b' /\ frame b b' /\ b_init b' = b_init b /\ b_places b' = b_places b /\
    (forall u, tr_of b' u = if existsb (Nat.eqb u) l then div_post p g (tr_of b u) else tr_of b u).
Proof.
  intros p g. induction l as [|t l IH]; intros b Hnd H.
  - exists b. split; [reflexivity|]. split; [apply frame_refl|]. auto.
  - inversion Hnd as [|x y H1 H2]; subst. destruct (H t (or_introl eq_refl)) as (a & Ea). cbn [fold_res]. unfold j_out at 1. rewrite Ea. cbn [some bind].
    assert (Ht : t < length (b_trans b)) by (apply get_arc_in in Ea; destruct Ea as (Ea & _); eapply in_post_range; exact Ea).
    set (b1 := set_tr b t _). assert (T1 : forall u, tr_of b1 u = if Nat.eqb u t then div_post p g (tr_of b t) else tr_of b u).
    { intros u. unfold b1. rewrite tr_set by exact Ht. unfold div_post. unfold out_arc in Ea. rewrite Ea. reflexivity. }
    destruct (IH b1 H2) as (b' & E & F & I & P & T).
    + intros u Hu. destruct (H u (or_intror Hu)) as (a' & Ea'). exists a'. unfold out_arc. rewrite T1. destruct (Nat.eqb_spec u t); [subst u; contradiction|exact Ea'].
    + exists b'. split; [exact E|]. split; [eapply frame_trans; [apply frame_set_tr|exact F]|]. split; [exact I|]. split; [exact P|].
      intros u. rewrite T, T1. cbn [existsb]. destruct (Nat.eqb_spec u t) as [Eu|Hu]; [subst u|reflexivity]. cbn [orb]. destruct (existsb (Nat.eqb t) l) eqn:Ex; [|reflexivity].
      apply existsb_in in Ex. contradiction.
Qed.
Definition div_tr (p : nat) (g : N) (x : btrans) : btrans := div_post p g (div_pre p g x).
Lemma div_tr_fields : forall p g x, bt_skip (div_tr p g x) = bt_skip x /\ bt_inhib (div_tr p g x) = bt_inhib x /\
  bt_pre (div_tr p g x) = (match get_arc (bt_pre x) p with Some a => set_weight (bt_pre x) p (arc_weight a / g) | None => bt_pre x end) /\
  bt_post (div_tr p g x) = (match get_arc (bt_post x) p with Some a => set_weight (bt_post x) p (arc_weight a / g) | None => bt_post x end).
Proof.
  intros p g x. unfold div_tr, div_pre. destruct (get_arc (bt_pre x) p); unfold div_post; cbn; destruct (get_arc (bt_post x) p); cbn; auto.
Qed.

Theorem rule_j_ok : forall inq b p, good b ->
  (forall t a, In a (bt_pre (tr_of b t)) \/ In a (bt_post (tr_of b t)) -> (arc_weight a < 4294967295)%N) ->
  sound_result inq b (rule_j inq b p).
Proof.
  intros inq b p G Wmax. unfold rule_j. destruct (inq p) eqn:Q; [apply result_refl; exact G|]. destruct (bp_skip (pl_of b p)) eqn:Sk; [apply result_refl; exact G|].
  destruct (match bp_cons (pl_of b p), bp_prod (pl_of b p) with [], [] => true | _, _ => false end) eqn:Em; [apply result_refl; exact G|].
  assert (Hc : forall t, In t (bp_cons (pl_of b p)) -> exists a, in_arc b p t = Some a /\ (0 < arc_weight a < no_mod)%N).
  { intros t Ht. destruct (cons_arc _ _ G Ht) as (a & Ea & Ha & _). exists a. split; [exact Ea|]. split; [apply (g_pre G t a Ha)|apply (Wmax t a); left; exact Ha]. }
  assert (Hp : forall t, In t (bp_prod (pl_of b p)) -> exists a, out_arc b t p = Some a /\ (0 < arc_weight a < no_mod)%N).
  { intros t Ht. destruct (prod_arc _ _ G Ht) as (a & Ea & Ha & _). exists a. split; [exact Ea|]. split; [apply (g_post G t a Ha)|apply (Wmax t a); right; exact Ha]. }
  destruct (@j_gcd_ok (in_arc b p) (bp_cons (pl_of b p)) no_mod Hc ltac:(reflexivity)) as (m1 & E1 & P1 & D1). rewrite E1. cbn [bind].
  destruct (N.eqb_spec m1 1) as [|N1]; [apply result_refl; exact G|]. destruct (D1 N1) as (D1a & _ & D1b & _ & D1c).
  destruct (@j_gcd_ok (fun t => out_arc b t p) (bp_prod (pl_of b p)) m1 Hp P1) as (m2 & E2 & P2 & D2). rewrite E2. cbn [bind].
  destruct (N.eqb_spec m2 1) as [|N2]; [apply result_refl; exact G|]. destruct (D2 N2) as (D2a & D2b & D2c & D2d & D2e).
  destruct (N.eqb_spec m2 0) as [Z|_]; [lia|].
  assert (Di : forall t a, in_arc b p t = Some a -> (m2 | arc_weight a)%N).
  { intros t a Ea. destruct (arc_cons _ _ G Ea) as (Ht & _). apply N.divide_trans with m1; [|apply (D1a t a Ht Ea)]. apply D2b.
    intros X. specialize (D1b eq_refl). destruct (bp_cons (pl_of b p)) as [|c l]; [contradiction|]. specialize (D1b ltac:(discriminate)). lia. }
  assert (Do : forall t a, out_arc b t p = Some a -> (m2 | arc_weight a)%N) by (intros t a Ea; destruct (arc_prod _ _ G Ea) as (Ht & _); apply (D2a t a Ht Ea)).
  assert (Wi : forall t a, in_arc b p t = Some a -> (0 < arc_weight a)%N) by (intros t a Ea; destruct (arc_cons _ _ G Ea) as (_ & Ha & _); apply (g_pre G t a Ha)).
  assert (Wo : forall t a, out_arc b t p = Some a -> (0 < arc_weight a)%N) by (intros t a Ea; destruct (arc_prod _ _ G Ea) as (_ & Ha & _); apply (g_post G t a Ha)).
  clear E1 E2 D1 D2 D1a D1b D1c D2a D2b D2c D2d D2e N2.
  destruct (@j_ins p m2 (bp_cons (pl_of b p)) b (sorted_nodup _ (g_scons G p))) as (b1 & F1 & Fr1 & I1 & Pl1 & T1); [intros t Ht; destruct (Hc t Ht) as (a & Ea & _); exists a; exact Ea|].
  rewrite F1. cbn [bind].
  assert (O1 : forall t, out_arc b1 t p = out_arc b t p).
  { intros t. unfold out_arc. rewrite T1. destruct (existsb (Nat.eqb t) (bp_cons (pl_of b p))); [|reflexivity]. unfold div_pre. destruct (get_arc (bt_pre (tr_of b t)) p); reflexivity. }
  destruct (@j_outs p m2 (bp_prod (pl_of b p)) b1 (sorted_nodup _ (g_sprod G p))) as (b2 & F2 & Fr2 & I2 & Pl2 & T2); [intros t Ht; rewrite O1; destruct (Hp t Ht) as (a & Ea & _); exists a; exact Ea|].
  rewrite F2. cbn [bind]. set (b' := set_init b2 p (init_at b2 p / m2)).
  assert (T : forall u, tr_of b' u = div_tr p m2 (tr_of b u)).
  { intros u. change (tr_of b' u) with (tr_of b2 u). rewrite T2, T1. unfold div_tr.
    assert (A : existsb (Nat.eqb u) (bp_cons (pl_of b p)) = false -> div_pre p m2 (tr_of b u) = tr_of b u).
    { intros E. unfold div_pre. change (get_arc (bt_pre (tr_of b u)) p) with (in_arc b p u). rewrite (proj2 (in_arc_none p u G)); [reflexivity|]. rewrite <- existsb_in. congruence. }
    assert (B : existsb (Nat.eqb u) (bp_prod (pl_of b p)) = false -> forall x, bt_post x = bt_post (tr_of b u) -> div_post p m2 x = x).
    { intros E x Hx. unfold div_post. rewrite Hx. change (get_arc (bt_post (tr_of b u)) p) with (out_arc b u p). rewrite (proj2 (out_arc_none p u G)); [reflexivity|]. rewrite <- existsb_in. congruence. }
    assert (C : bt_post (div_pre p m2 (tr_of b u)) = bt_post (tr_of b u)) by (unfold div_pre; destruct (get_arc (bt_pre (tr_of b u)) p); reflexivity).
    destruct (existsb (Nat.eqb u) (bp_cons (pl_of b p))); [|rewrite A by reflexivity]; (destruct (existsb (Nat.eqb u) (bp_prod (pl_of b p))); [reflexivity|]); symmetry; apply B; auto. }
  assert (Fr : frame b b') by (eapply frame_trans; [exact Fr1|]; eapply frame_trans; [exact Fr2|apply frame_set_init]).
  assert (Pl : forall q, pl_of b' q = pl_of b q) by (intros q; unfold pl_of; cbn [b' set_init b_places]; rewrite Pl2, Pl1; reflexivity).
  assert (Ip : p < length (b_init b2)) by (rewrite I2, I1, (g_ni G), <- (g_np G); apply pl_range; exact Sk).
  assert (In' : forall q, init_at b' q = if Nat.eqb q p then (init_at b p / m2)%N else init_at b q).
  { intros q. unfold b'. rewrite init_set by exact Ip. unfold init_at. rewrite I2, I1. reflexivity. }
  assert (G' : good b').
  { eapply good_reweigh; [exact G|exact Fr|cbn; rewrite upd_length, I2, I1; reflexivity|exact Pl|]. intros u. rewrite T. destruct (div_tr_fields p m2 (tr_of b u)) as (A1 & A2 & A3 & A4).
    split; [exact A1|]. split; [exact A2|]. rewrite A3, A4. split.
    - pose proof (Di u) as X. pose proof (Wi u) as Y. unfold in_arc in X, Y. destruct (get_arc (bt_pre (tr_of b u)) p) as [a|]; [|apply alike_refl, good_pos_pre, G].
      apply alike_set; [apply (g_spre G)|apply good_pos_pre, G|]. apply div_pos; auto.
    - pose proof (Do u) as X. pose proof (Wo u) as Y. unfold out_arc in X, Y. destruct (get_arc (bt_post (tr_of b u)) p) as [a|]; [|apply alike_refl, good_pos_post, G].
      apply alike_set; [apply (g_spost G)|apply good_pos_post, G|]. apply div_pos; auto. }
  apply result_same; [exact G|exact G'|].
  assert (Lv : forall u, live b' u = live b u) by (intros u; unfold live; rewrite (f_nt Fr), T; destruct (div_tr_fields p m2 (tr_of b u)) as (-> & _); reflexivity).
  assert (Eq : forall u, aeq (scaled p m2 (atr_of (tr_of b u))) (atr_of (div_tr p m2 (tr_of b u)))).
  { intros u. destruct (div_tr_fields p m2 (tr_of b u)) as (_ & _ & A3 & A4). unfold aeq, scaled, atr_of, wt, ih. cbn [a_in a_out a_inh]. rewrite A3, A4.
    destruct (get_arc (bt_pre (tr_of b u)) p) as [a|] eqn:Ea; destruct (get_arc (bt_post (tr_of b u)) p) as [o|] eqn:Eo; (split; [|split]); intros q; destruct (Nat.eqb_spec q p) as [->|Hq];
      repeat rewrite get_set by (apply (g_spre G) || apply (g_spost G)); rewrite ?Ea, ?Eo, ?Nat.eqb_refl; try (destruct (Nat.eqb_spec q p); [contradiction|]); cbn [arc_weight arc_inhib]; try reflexivity;
      try (destruct (arc_inhib a); try reflexivity); try (destruct (arc_inhib o); reflexivity); try (apply N.div_0_l; lia); apply N.div_0_l; lia. }
  apply scale_place with (p0 := p) (k := m2).
  - exact Q.
  - exact P2.
  - intros q Hq. cbn [anet_of an_init]. rewrite In'. destruct (Nat.eqb_spec q p); [contradiction|reflexivity].
  - cbn [anet_of an_init]. rewrite In', Nat.eqb_refl. reflexivity.
  - intros i x Hx. apply live_tr in Hx. destruct Hx as (-> & _). rewrite a_in_of, (a_out_of i p G). split; [|split].
    + destruct (in_arc b p i) as [a|] eqn:Ea; [|apply N.mod_0_l; lia]. destruct (arc_inhib a); [apply N.mod_0_l; lia|]. apply div_pos; [exact P2|eapply Wi; eauto|eapply Di; eauto].
    + destruct (out_arc b i p) as [a|] eqn:Ea; [|apply N.mod_0_l; lia]. apply div_pos; [exact P2|eapply Wo; eauto|eapply Do; eauto].
    + intros w. unfold atr_of, ih. cbn [a_inh]. change (get_arc (bt_pre (tr_of b i)) p) with (in_arc b p i). destruct (in_arc b p i) as [a|] eqn:Ea; [|discriminate].
      destruct (arc_inhib a); [intros [= <-]|discriminate]. apply div_pos; [exact P2|eapply Wi; eauto|eapply Di; eauto].
  - intros i x Hx. apply live_tr in Hx. destruct Hx as (-> & Hl). rewrite Lv in Hl. exists (atr_of (tr_of b i)). split; [apply tr_live; exact Hl|]. rewrite T. apply Eq.
  - intros i x Hx. apply live_tr in Hx. destruct Hx as (-> & Hl). exists (atr_of (tr_of b' i)). split; [apply tr_live; rewrite Lv; exact Hl|]. rewrite T. apply Eq.
Qed.
