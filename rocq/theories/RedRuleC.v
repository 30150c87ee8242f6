(** Rules C, M and I: places in parallel, dead places, irrelevant transitions and places. *)
From Verif Require Import Base BaseLemmas NetSpec NetModel BuilderModel RedTheory RedSpec RedModel RedCand RedProofs RedNet RedRules RedRuleJ RedAgg RedOps RedRuleFNO RedRuleE.
Set Implicit Arguments.

(** ** Rule C *)
Definition ratio_le (r r' : N * N) : Prop := (fst r * snd r' <= fst r' * snd r)%N.
Lemma ratio_trans : forall a b c, (0 < snd b)%N -> ratio_le a b -> ratio_le b c -> ratio_le a c.
Proof.
  intros [a1 a2] [b1 b2] [c1 c2] Hb H1 H2. unfold ratio_le in *. cbn [fst snd] in *. apply (N.mul_le_mono_pos_r _ _ b2 Hb). transitivity (b1 * a2 * c2)%N; [nia|]. transitivity (c1 * b2 * a2)%N; [nia|nia].
Qed.
Lemma c_drain_ok : forall b p1 p2 l1 l2 r, good b -> (forall t, In t l1 -> In t (bp_cons (pl_of b p1))) -> (forall t, In t l2 -> In t (bp_cons (pl_of b p2))) -> (0 < snd r)%N ->
  exists o, c_drain b p1 p2 l1 l2 r = Ok o /\
    (forall r', o = Some r' -> (0 < snd r')%N /\ ratio_le r r' /\
      forall t, In t l2 -> exists a1 a2, in_arc b p1 t = Some a1 /\ in_arc b p2 t = Some a2 /\ ratio_le (arc_weight a2, arc_weight a1) r').
Proof.
  intros b p1 p2 l1. induction l1 as [|t1 l1 IH]; intros l2 r G H1 H2 Hr; destruct l2 as [|t2 l2]; cbn [c_drain].
  1,3: exists (Some r); split; [reflexivity|]; intros r' [= <-]; split; [exact Hr|]; split; [unfold ratio_le; lia|intros t []].
  - exists None. split; [reflexivity|discriminate].
  - destruct (Nat.ltb_spec t2 t1) as [L|L]; [exists None; split; [reflexivity|discriminate]|]. destruct (Nat.ltb_spec t1 t2) as [L'|L'].
    + apply IH; auto. intros t Ht. apply H1. right. exact Ht.
    + assert (E : t1 = t2) by lia. subst t2. destruct (cons_arc p1 t1 G (H1 t1 (or_introl eq_refl))) as (a1 & E1 & Ha1 & _). destruct (cons_arc p2 t1 G (H2 t1 (or_introl eq_refl))) as (a2 & E2 & Ha2 & _). rewrite E1, E2. cbn [some bind].
      destruct (g_pre G t1 a1 Ha1) as (_ & W1 & _).
      set (r1 := if (fst r * arc_weight a1 <? arc_weight a2 * snd r)%N then (arc_weight a2, arc_weight a1) else r).
      assert (K : (0 < snd r1)%N /\ ratio_le r r1 /\ ratio_le (arc_weight a2, arc_weight a1) r1).
      { unfold r1, ratio_le. destruct (N.ltb_spec (fst r * arc_weight a1) (arc_weight a2 * snd r)); cbn [fst snd]; split; try assumption; split; nia. }
      destruct K as (K1 & K2 & K3). destruct (IH l2 r1 G (fun t Ht => H1 t (or_intror Ht)) (fun t Ht => H2 t (or_intror Ht)) K1) as (o & Eo & R). exists o. split; [exact Eo|]. intros r' Er. destruct (R r' Er) as (R1 & R2 & R3). split; [exact R1|]. split; [exact (@ratio_trans r r1 r' K1 K2 R2)|].
      intros t [<-|Ht]; [exists a1, a2; split; [exact E1|]; split; [exact E2|exact (@ratio_trans _ r1 r' K1 K3 R2)]|apply R3; exact Ht].
Qed.
Lemma c_fill_ok : forall b p1 p2 r l2 l1, good b -> (forall t, In t l1 -> In t (bp_prod (pl_of b p1))) -> (forall t, In t l2 -> In t (bp_prod (pl_of b p2))) ->
  exists ok, c_fill b p1 p2 r l2 l1 = Ok ok /\ (ok = true -> forall t, In t l1 -> exists a1 a2, out_arc b t p1 = Some a1 /\ out_arc b t p2 = Some a2 /\ (fst r * arc_weight a1 <= arc_weight a2 * snd r)%N).
Proof.
  intros b p1 p2 r l2. induction l2 as [|t2 l2 IH]; intros l1 G H1 H2; destruct l1 as [|t1 l1]; cbn [c_fill].
  1,3: exists true; split; [reflexivity|intros _ t []].
  - exists false. split; [reflexivity|discriminate].
  - destruct (Nat.ltb_spec t1 t2) as [L|L]; [exists false; split; [reflexivity|discriminate]|]. destruct (Nat.ltb_spec t2 t1) as [L'|L'].
    + apply IH; auto. intros t Ht. apply H2. right. exact Ht.
    + assert (E : t2 = t1) by lia. subst t2. destruct (prod_arc p1 t1 G (H1 t1 (or_introl eq_refl))) as (a1 & E1 & _). destruct (prod_arc p2 t1 G (H2 t1 (or_introl eq_refl))) as (a2 & E2 & _). rewrite E1, E2. cbn [some bind].
      destruct (N.ltb_spec (arc_weight a2 * snd r) (fst r * arc_weight a1)) as [Lw|Lw]; [exists false; split; [reflexivity|discriminate]|].
      destruct (IH l1 G (fun t Ht => H1 t (or_intror Ht)) (fun t Ht => H2 t (or_intror Ht))) as (ok & Eo & R). exists ok. split; [exact Eo|]. intros Hok t [<-|Ht]; [exists a1, a2; auto|apply R; assumption].
Qed.
Theorem rule_c_ok : forall inq b p1 p2, good b -> bp_inhib (pl_of b p1) = false -> sound_result inq b (rule_c inq b p1 p2).
Proof.
  intros inq b p1 p2 G Ni. unfold rule_c. destruct (Nat.eqb_spec p1 p2) as [E|Ne]; [apply result_refl; exact G|]. cbn [orb]. destruct (bp_skip (pl_of b p1)) eqn:Sk1; [apply result_refl; exact G|]. destruct (bp_skip (pl_of b p2)) eqn:Sk2; [apply result_refl; exact G|]. cbn [orb].
  destruct (inq p2) eqn:Q; [apply result_refl; exact G|]. destruct (bp_inhib (pl_of b p2)) eqn:I2; [apply result_refl; exact G|]. cbn [orb].
  match goal with |- context [if ?c then Ok b else _] => destruct c; [apply result_refl; exact G|] end. destruct (_ || _); [apply result_refl; exact G|].
  destruct (@c_drain_ok b p1 p2 (bp_cons (pl_of b p1)) (bp_cons (pl_of b p2)) (0, 1)%N G (fun t H => H) (fun t H => H)) as (o & Eo & Ro); [cbn; lia|]. rewrite Eo. cbn [bind]. destruct o as [[A B]|]; [|apply result_refl; exact G].
  destruct (Ro _ eq_refl) as (HB & _ & R). cbn [snd] in HB. clear Ro Eo. cbn [fst snd]. destruct (N.ltb_spec (init_at b p2 * B) (init_at b p1 * A)) as [Li|Li]; [apply result_refl; exact G|].
  destruct (@c_fill_ok b p1 p2 (A, B) (bp_prod (pl_of b p2)) (bp_prod (pl_of b p1)) G (fun t H => H) (fun t H => H)) as (ok & Eo & Rf). rewrite Eo. cbn [bind]. destruct ok; [|apply result_refl; exact G]. specialize (Rf eq_refl). cbn [fst snd] in Rf.
  assert (NI : forall p t a, bp_inhib (pl_of b p) = false -> in_arc b p t = Some a -> arc_inhib a = false).
  { intros p t a Ip Ea. destruct (arc_cons _ _ G Ea) as (_ & Ha & Hp). destruct (g_pre G t a Ha) as (_ & _ & X). destruct (arc_inhib a); [|reflexivity]. destruct (X eq_refl) as (_ & Y). rewrite Hp in Y. congruence. }
  assert (In12 : forall t, (a_in (atr_of (tr_of b t)) p2 * B <= a_in (atr_of (tr_of b t)) p1 * A)%N).
  { intros t. rewrite !a_in_of. destruct (in_arc b p2 t) as [a2|] eqn:E2; [|lia]. destruct (arc_cons _ _ G E2) as (Hc & _). destruct (R t Hc) as (a1 & a2' & F1 & F2 & F3). assert (X : a2' = a2) by congruence. subst a2'. rewrite F1. unfold ratio_le in F3. cbn [fst snd] in F3. rewrite (NI p1 t a1 Ni F1), (NI p2 t a2 I2 E2). lia. }
  assert (Out12 : forall t, (a_out (atr_of (tr_of b t)) p1 * A <= a_out (atr_of (tr_of b t)) p2 * B)%N).
  { intros t. rewrite !(a_out_of t _ G). destruct (out_arc b t p1) as [a1|] eqn:E1; [|lia]. destruct (arc_prod _ _ G E1) as (Hc & _). destruct (Rf t Hc) as (a1' & a2 & F1 & F2 & F3). assert (X : a1' = a1) by congruence. subst a1'. rewrite F2. lia. }
  assert (Inv : forall m, areach (anet_of b) m -> (m p1 * A <= m p2 * B)%N).
  { apply areach_ind; [intros m X; rewrite !(X _); exact Li|]. intros m i x m1 _ IH Hx En X. apply live_tr in Hx. destruct Hx as (-> & _). rewrite !(X _). unfold afire. destruct (En p1) as (E1 & _). destruct (En p2) as (E2 & _). specialize (In12 i). specialize (Out12 i).
    rewrite !N.mul_add_distr_r, !N.mul_sub_distr_r. assert (a_in (atr_of (tr_of b i)) p1 * A <= m p1 * A)%N by (apply N.mul_le_mono_r; exact E1). assert (a_in (atr_of (tr_of b i)) p2 * B <= m p2 * B)%N by (apply N.mul_le_mono_r; exact E2). lia. }
  apply skip_place_drop; [exact G|exact Sk2|exact Q|]. intros m t x Rm Hx W q. apply live_tr in Hx. destruct Hx as (-> & _). destruct (Nat.eq_dec q p2) as [->|Hq].
  - split.
    + specialize (Inv m Rm). specialize (In12 t). pose proof (W p1) as (W1 & _). cbn [without a_in] in W1. destruct (Nat.eqb_spec p1 p2); [contradiction|]. apply (N.mul_le_mono_pos_r _ _ B HB).
      assert (a_in (atr_of (tr_of b t)) p1 * A <= m p1 * A)%N by (apply N.mul_le_mono_r; exact W1). lia.
    + intros w Hw. destruct (@a_inh_flag b t p2 w G Hw). congruence.
  - specialize (W q). cbn [without a_in a_inh] in W. destruct (Nat.eqb_spec q p2); [contradiction|exact W].
Qed.

(** ** Removal of several places *)
Definition withouts (P : nat -> bool) (t : atr) : atr :=
  mkAtr (fun q => if P q then 0%N else a_in t q) (fun q => if P q then 0%N else a_out t q) (fun q => if P q then None else a_inh t q).
Lemma place_ifs_ok : forall c l b, good b ->
  exists b', fold_res (place_if c) l b = Ok b' /\ good b' /\ frame b b' /\ b_init b' = b_init b /\ (forall u, bt_skip (tr_of b' u) = bt_skip (tr_of b u)) /\
    (forall u, aeq (withouts (fun q => existsb (Nat.eqb q) l && c q) (atr_of (tr_of b u))) (atr_of (tr_of b' u))).
Proof.
  intros c. induction l as [|p l IH]; intros b G.
  - exists b. split; [reflexivity|]. split; [exact G|]. split; [apply frame_refl|]. split; [reflexivity|]. split; [reflexivity|]. intros u. split; [|split]; reflexivity.
  - cbn [fold_res]. unfold place_if at 1. destruct (bp_skip (pl_of b p)) eqn:Sk; [|destruct (c p) eqn:C]; cbn [negb andb bind].
    + destruct (IH b G) as (b' & E & G' & F & I & S & T). exists b'. split; [exact E|]. split; [exact G'|]. split; [exact F|]. split; [exact I|]. split; [exact S|]. intros u. destruct (T u) as (T1 & T2 & T3).
      assert (Z : get_arc (bt_pre (tr_of b u)) p = None /\ get_arc (bt_post (tr_of b u)) p = None).
      { split; destruct (get_arc _ p) as [a|] eqn:Ea; try reflexivity; apply get_arc_in in Ea; destruct Ea as (Ha & <-); [destruct (g_pre G u a Ha)|destruct (g_post G u a Ha)]; congruence. }
      destruct Z as (Z1 & Z2). split; [|split]; intros q; [rewrite <- T1|rewrite <- T2|rewrite <- T3]; cbn [withouts a_in a_out a_inh existsb]; (destruct (Nat.eqb_spec q p) as [->|_]; cbn [orb]; [|reflexivity]);
        cbn [atr_of a_in a_out a_inh]; unfold wt, ih; rewrite ?Z1, ?Z2; destruct (true && c p), (existsb (Nat.eqb p) l && c p); reflexivity.
    + destruct (skip_place_ok p G Sk) as (b1 & E1 & G1 & F1 & I1 & _ & _ & _ & T1). rewrite E1. cbn [bind]. destruct (IH b1 G1) as (b' & E & G' & F & I & S & T). exists b'. split; [exact E|]. split; [exact G'|]. split; [eapply frame_trans; eauto|]. split; [congruence|].
      split; [intros u; rewrite S, T1; reflexivity|]. intros u. destruct (T u) as (A1 & A2 & A3). destruct (@without_noplace b p u G) as (B1 & B2 & B3). rewrite T1 in *.
      split; [|split]; intros q; [rewrite <- A1|rewrite <- A2|rewrite <- A3]; cbn [withouts a_in a_out a_inh existsb]; [rewrite <- B1|rewrite <- B2|rewrite <- B3]; cbn [without a_in a_out a_inh];
        (destruct (Nat.eqb_spec q p) as [->|_]; cbn [orb andb]; [rewrite C; destruct (_ && _); reflexivity|destruct (_ && _); reflexivity]).
    + destruct (IH b G) as (b' & E & G' & F & I & S & T). exists b'. split; [exact E|]. split; [exact G'|]. split; [exact F|]. split; [exact I|]. split; [exact S|]. intros u. destruct (T u) as (T1 & T2 & T3).
      split; [|split]; intros q; [rewrite <- T1|rewrite <- T2|rewrite <- T3]; cbn [withouts a_in a_out a_inh existsb]; (destruct (Nat.eqb_spec q p) as [->|_]; cbn [orb]; [|reflexivity]); rewrite C, !andb_false_r; reflexivity.
Qed.
Lemma project : forall Q N N' (P : nat -> bool), (forall p, P p = true -> Q p = false) -> (forall p, P p = false -> an_init N p = an_init N' p) ->
  (forall i t', an_tr N' i = Some t' -> exists t, an_tr N i = Some t /\ aeq (withouts P t) t') ->
  (forall m i t, areach N m -> an_tr N i = Some t -> aen t m -> exists t', an_tr N' i = Some t') ->
  (forall m i t t', areach N m -> an_tr N i = Some t -> an_tr N' i = Some t' -> aen (withouts P t) m -> aen t m) ->
  same Q N N'.
Proof.
  intros Q N N' P HQ Ei H1 H2 H3.
  assert (F : forall t m m', (forall p, P p = false -> m p = m' p) -> forall p, P p = false -> afire t m p = afire (withouts P t) m' p).
  { intros t m m' A p Hp. unfold afire. cbn [withouts a_in a_out]. rewrite Hp, (A p Hp). reflexivity. }
  split.
  - apply sim_rel with (R := fun m m' => forall p, P p = false -> m p = m' p).
    + intros m Em. exists (an_init N'). split; [apply areach_init|]. intros p Hp. rewrite (Em p). apply Ei. exact Hp.
    + intros m m' i t m1 R _ A Ht En X. destruct (H2 m i t R Ht En) as (t' & Ht'). destruct (H1 i t' Ht') as (t0 & Ht0 & Aq). assert (E : t0 = t) by congruence. subst t0.
      exists (afire t' m'). split.
      * apply arun_one with (i := i) (t := t'); [exact Ht'| |apply ext_refl]. apply (aeq_en Aq). intros p. cbn [withouts a_in a_inh]. destruct (P p) eqn:Hp; [split; [lia|discriminate]|]. rewrite <- (A p Hp). apply En.
      * intros p Hp. rewrite (X p), <- (aeq_fire m' Aq p). apply F; assumption.
    + intros m m' A p Hp. apply A. destruct (P p) eqn:E; [rewrite (HQ p E) in Hp; discriminate|reflexivity].
  - apply sim_rel with (R := fun m' m => forall p, P p = false -> m p = m' p).
    + intros m Em. exists (an_init N). split; [apply areach_init|]. intros p Hp. rewrite (Em p). apply Ei. exact Hp.
    + intros m' m i t' m1 _ R A Ht' En X. destruct (H1 i t' Ht') as (t & Ht & Aq).
      assert (En' : aen t m).
      { apply (H3 m i t t' R Ht Ht'). assert (Aq' : aeq t' (withouts P t)) by (destruct Aq as (Q1 & Q2 & Q3); split; [|split]; intros q; [rewrite Q1|rewrite Q2|rewrite Q3]; reflexivity). pose proof (aeq_en Aq' En) as En2.
        intros p. specialize (En2 p). cbn [withouts a_in a_inh] in *. destruct (P p) eqn:Hp; [split; [lia|discriminate]|]. rewrite (A p Hp). exact En2. }
      exists (afire t m). split; [apply arun_one with (i := i) (t := t); [exact Ht|exact En'|apply ext_refl]|]. intros p Hp. rewrite (X p), <- (aeq_fire m' Aq p). apply F; assumption.
    + intros m' m A p Hp. symmetry. apply A. destruct (P p) eqn:E; [rewrite (HQ p E) in Hp; discriminate|reflexivity].
Qed.

(** ** Rule M *)
Lemma lives : forall b b1 b2 seen, frame b b1 -> frame b1 b2 -> (forall u, bt_skip (tr_of b1 u) = bt_skip (tr_of b u)) ->
  (forall u, tr_of b2 u = if existsb (Nat.eqb u) (seq 0 (length (b_trans b))) && negb (bt_skip (tr_of b1 u)) && negb (seen u) then gone (tr_of b1 u) else tr_of b1 u) ->
  forall i, live b2 i = live b i && seen i /\ (live b2 i = true -> tr_of b2 i = tr_of b1 i).
Proof.
  intros b b1 b2 seen F1 F2 S T i. assert (L : live b2 i = live b i && seen i).
  { unfold live. rewrite (f_nt F2), (f_nt F1), T. destruct (Nat.ltb_spec i (length (b_trans b))) as [Hi|Hi]; [|reflexivity]. cbn [andb]. assert (X : existsb (Nat.eqb i) (seq 0 (length (b_trans b))) = true) by (apply existsb_in, in_seq; lia). rewrite X, S. cbn [andb].
    destruct (bt_skip (tr_of b i)) eqn:Sk; cbn [negb andb]; [rewrite S, Sk; reflexivity|]. destruct (seen i); cbn [negb]; [rewrite S, Sk|]; reflexivity. }
  split; [exact L|]. intros H. rewrite L in H. apply andb_true_iff in H. destruct H as (_ & H). rewrite T, H. cbn [negb]. rewrite andb_false_r. reflexivity.
Qed.
Theorem rule_m_ok : forall inq b, good b -> sound_result inq b (rule_m inq b).
Proof.
  intros inq b G. unfold rule_m. destruct (efm_fix G) as (s & E & Lo & No & Ma & Wt & Dn). rewrite E. cbn [bind]. set (c := fun p => negb (inq p) && negb (e_inc s p) && negb (e_dec s p)).
  destruct (@place_ifs_ok c (seq 0 (length (b_places b))) b G) as (b1 & E1 & G1 & F1 & I1 & S1 & T1). rewrite E1. cbn [bind].
  destruct (@drop_unless_ok (e_done s) (seq 0 (length (b_trans b))) b1 G1) as (b2 & E2 & G2 & F2 & I2 & _ & T2); [intros t Ht; apply in_seq in Ht; rewrite (f_nt F1); lia|]. rewrite E2.
  pose proof (@lives b b1 b2 (e_done s) F1 F2 S1 T2) as L. apply result_same; [exact G|exact G2|]. set (P := fun q => existsb (Nat.eqb q) (seq 0 (length (b_places b))) && c q) in *.
  apply (@project inq (anet_of b) (anet_of b2) P).
  - intros p Hp. unfold P, c in Hp. apply andb_true_iff in Hp. destruct Hp as (_ & Hp). apply andb_true_iff in Hp. destruct Hp as (Hp & _). apply andb_true_iff in Hp. destruct Hp as (Hp & _). apply negb_true_iff in Hp. exact Hp.
  - intros p _. cbn [anet_of an_init]. unfold init_at. rewrite I2, I1. reflexivity.
  - intros i t' Ht. apply live_tr in Ht. destruct Ht as (-> & Li). destruct (L i) as (L1 & L2). rewrite (L2 Li). rewrite L1 in Li. apply andb_true_iff in Li. exists (atr_of (tr_of b i)). split; [apply tr_live; apply Li|apply T1].
  - intros m i t R Ht En. pose proof (Dn m i t R Ht En) as D. apply live_tr in Ht. destruct Ht as (_ & Lt). exists (atr_of (tr_of b2 i)). apply tr_live. rewrite (proj1 (L i)), Lt, D. reflexivity.
  - intros m i t t' R Ht Ht' En p. apply live_tr in Ht'. destruct Ht' as (_ & Li). rewrite (proj1 (L i)) in Li. apply andb_true_iff in Li. destruct Li as (_ & D). apply live_tr in Ht. destruct Ht as (-> & _).
    specialize (En p). cbn [withouts a_in a_inh] in En. destruct (P p) eqn:Hp; [|exact En]. unfold P, c in Hp. apply andb_true_iff in Hp. destruct Hp as (_ & Hp). apply andb_true_iff in Hp. destruct Hp as (Hp & Hd). apply andb_true_iff in Hp. destruct Hp as (_ & Hi). apply negb_true_iff in Hi, Hd.
    destruct (Wt m R p) as (_ & W2 & W3). specialize (W2 Hi). specialize (W3 Hd). destruct (Ma i D p) as ([M1|M1] & M2); [|congruence]. split; [lia|]. intros w Hw. destruct (M2 w Hw) as [M3|M3]; [lia|congruence].
Qed.
