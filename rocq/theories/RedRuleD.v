(** Rule D: a transition that another one, fired several times, replaces. *)
From Verif Require Import Base BaseLemmas NetSpec NetModel BuilderModel RedTheory RedSpec RedModel RedCand RedProofs RedNet RedRules RedRuleJ RedAgg RedOps RedRuleFNO RedRuleE.
Set Implicit Arguments.

Lemma fire_k : forall T i t (k : nat) m, T i = Some t -> (forall p w, a_inh t p = Some w -> False) -> (forall p, N.of_nat k * a_in t p <= m p)%N ->
  arun T m (fun p => m p - N.of_nat k * a_in t p + N.of_nat k * a_out t p)%N.
Proof.
  intros T i t k. induction k as [|k IH]; intros m Ht Hi He.
  - apply ar_nil. intros p. lia.
  - rewrite Nat2N.inj_succ in *. apply ar_cons with (i := i) (t := t) (m1 := afire t m); [exact Ht| |apply ext_refl|].
    + intros p. split; [specialize (He p); nia|intros w Hw; destruct (Hi p w Hw)].
    + eapply arun_ext_r; [apply IH; auto|].
      * intros p. specialize (He p). unfold afire. nia.
      * intros p. specialize (He p). unfold afire. nia.
Qed.
Lemma fire_kN : forall T i t (k : N) m, T i = Some t -> (forall p w, a_inh t p = Some w -> False) -> (forall p, k * a_in t p <= m p)%N ->
  arun T m (fun p => m p - k * a_in t p + k * a_out t p)%N.
Proof. intros T i t k m Ht Hi He. pose proof (@fire_k T i t (N.to_nat k) m Ht Hi) as H. rewrite N2Nat.id in H. apply H. exact He. Qed.

(** ** The checks *)
Definition plain (l : list arc) : Prop := forall a, In a l -> arc_inhib a = false /\ (0 < arc_weight a)%N /\ (arc_weight a < 65536)%N.
Lemma plain_tl : forall a l, plain (a :: l) -> plain l.
Proof. intros a l H x Hx. apply H. right. exact Hx. Qed.
Lemma wt_none_q : forall (inq : nat -> bool) l p, forallb (fun a => negb (inq (arc_place a))) l = true -> inq p = true -> wt l p = 0%N.
Proof.
  intros inq l p H Hp. unfold wt. destruct (get_arc l p) as [a|] eqn:E; [|reflexivity]. apply get_arc_in in E. destruct E as (Ha & <-). rewrite forallb_forall in H. specialize (H a Ha). rewrite Hp in H. discriminate.
Qed.
Lemma wt_plain_head : forall a l, plain (a :: l) -> srt (a :: l) -> wt (a :: l) (arc_place a) = arc_weight a.
Proof. intros a l P S. rewrite wt_head by exact S. destruct (P a (or_introl eq_refl)) as (-> & _). reflexivity. Qed.
Lemma wt_below : forall a l p, srt (a :: l) -> p < arc_place a -> wt (a :: l) p = 0%N.
Proof. intros a l p S H. pose proof S as (A & B). apply wt_low; [exact S|]. intros q [<-|Hq]; [exact H|specialize (A q Hq); lia]. Qed.
Lemma wrap_small : forall x y, (x < 65536)%N -> (y < 65536)%N -> wrap32 (x * y) = (x * y)%N.
Proof. intros x y Hx Hy. unfold wrap32. apply N.mod_small. nia. Qed.

Lemma d_pre_ok : forall inq l1 l2 mult some exact k ex, srt l1 -> srt l2 -> plain l1 -> plain l2 -> (1 <= mult)%N -> d_pre inq l1 l2 mult some exact = Some (k, ex) ->
  (1 <= k <= mult)%N /\ (forall p, k * wt l1 p <= wt l2 p)%N /\ (forall p, inq p = true -> (k * wt l1 p = wt l2 p)%N) /\
  (ex = true -> exact = true /\ (l1 = [] -> l2 = []) /\ (l1 <> [] -> k = 1%N) /\ forall p, wt l1 p = wt l2 p) /\ (l1 <> [] -> (k < 65536)%N).
Proof.
  intros inq l1. induction l1 as [|a l1 IH1]; intros l2; induction l2 as [|a2 l2 IH2]; intros mult some exact k ex S1 S2 P1 P2 M H.
  - cbn in H. injection H as <- <-. split; [lia|]. split; [intros p; cbn; lia|]. split; [intros p _; cbn; lia|]. split; [|congruence]. intros E. apply andb_true_iff in E. split; [apply E|]. split; [reflexivity|]. split; [congruence|reflexivity].
  - cbn [d_pre] in H. destruct (forallb (fun a => negb (inq (arc_place a))) (a2 :: l2)) eqn:F; [|discriminate]. injection H as <- <-. split; [lia|]. split; [intros p; cbn [wt get_arc]; unfold wt at 1; cbn [get_arc]; lia|].
    split; [intros p Hp; rewrite (wt_none_q _ _ _ F Hp); unfold wt; cbn [get_arc]; lia|]. split; [|congruence]. cbn [no_arcs]. rewrite andb_false_r. discriminate.
  - cbn [d_pre] in H. discriminate.
  - cbn [d_pre] in H. pose proof (wt_plain_head P1 S1) as W1. pose proof (wt_plain_head P2 S2) as W2. destruct (P1 a (or_introl eq_refl)) as (I1 & Z1 & B1). destruct (P2 a2 (or_introl eq_refl)) as (I2 & Z2 & B2).
    pose proof S1 as (A1 & S1'). pose proof S2 as (A2 & S2').
    destruct (Nat.ltb_spec (arc_place a2) (arc_place a)) as [L|L].
    + destruct (inq (arc_place a2)) eqn:Q; [discriminate|]. destruct (IH2 mult some false k ex S1 S2' P1 (plain_tl P2) M H) as (K1 & K2 & K3 & K4 & K5). split; [exact K1|].
      assert (Z : wt (a :: l1) (arc_place a2) = 0%N) by (apply wt_below; assumption).
      split; [intros p; destruct (Nat.eq_dec p (arc_place a2)) as [->|Hp]; [rewrite Z; lia|rewrite (@wt_after a2 l2 p S2 Hp); apply K2]|].
      split; [intros p Hp; destruct (Nat.eq_dec p (arc_place a2)) as [->|Hp']; [congruence|rewrite (@wt_after a2 l2 p S2 Hp'); apply K3; exact Hp]|]. split; [|exact K5]. intros E. destruct (K4 E). discriminate.
    + destruct (Nat.eqb_spec (arc_place a2) (arc_place a)) as [E|E]; cbn [negb] in H; [|discriminate]. destruct (N.ltb_spec (arc_weight a2) (arc_weight a)) as [Lw|Lw]; [discriminate|].
      set (m' := N.min (arc_weight a2 / arc_weight a) mult) in *. destruct (negb (mult =? 4294967295)%N && negb (m' =? mult)%N && some); [discriminate|]. set (eq := (arc_weight a =? wrap32 (arc_weight a2 * m'))%N) in *.
      destruct (inq (arc_place a2) && negb eq) eqn:Qe; [discriminate|].
      assert (D1 : (1 <= arc_weight a2 / arc_weight a)%N) by (apply N.div_le_lower_bound; lia).
      assert (D2 : (arc_weight a * (arc_weight a2 / arc_weight a) <= arc_weight a2)%N) by (apply N.mul_div_le; lia).
      assert (M' : (1 <= m')%N) by (unfold m'; lia). assert (Mm : (m' <= mult)%N) by (unfold m'; lia). assert (Md : (m' <= arc_weight a2 / arc_weight a)%N) by (unfold m'; lia).
      assert (Mw : (m' * arc_weight a <= arc_weight a2)%N) by nia. assert (Mb : (m' < 65536)%N) by nia.
      assert (Eq1 : eq = true -> m' = 1%N /\ arc_weight a = arc_weight a2).
      { unfold eq. rewrite N.eqb_eq, wrap_small by assumption. intros Ew. nia. }
      destruct (IH1 l2 m' _ _ k ex S1' S2' (plain_tl P1) (plain_tl P2) M' H) as (K1 & K2 & K3 & K4 & K5). split; [lia|].
      assert (Kw : (k * arc_weight a <= arc_weight a2)%N) by nia.
      split; [intros p; destruct (Nat.eq_dec p (arc_place a)) as [->|Hp]; [rewrite W1; rewrite <- E at 1; rewrite W2; exact Kw|rewrite (@wt_after a l1 p S1 Hp), (@wt_after a2 l2 p S2) by congruence; apply K2]|].
      split; [|split].
      * intros p Hq. destruct (Nat.eq_dec p (arc_place a)) as [->|Hp]; [|rewrite (@wt_after a l1 p S1 Hp), (@wt_after a2 l2 p S2) by congruence; apply K3; exact Hq].
        rewrite W1. rewrite <- E at 1. rewrite W2. rewrite E, Hq in Qe. cbn [andb] in Qe. apply negb_false_iff in Qe. destruct (Eq1 Qe) as (Q1 & Q2). nia.
      * intros Ex. destruct (K4 Ex) as (K6 & K7 & K8 & K9). apply andb_true_iff in K6. destruct K6 as (Ke & Kq). destruct (Eq1 Kq) as (Q1 & Q2). split; [exact Ke|]. split; [discriminate|]. split; [intros _; lia|].
        intros p. destruct (Nat.eq_dec p (arc_place a)) as [->|Hp]; [rewrite W1; rewrite <- E at 1; rewrite W2; exact Q2|rewrite (@wt_after a l1 p S1 Hp), (@wt_after a2 l2 p S2) by congruence; apply K9].
      * intros _. lia.
Qed.
Lemma d_post_ok : forall inq mult l2 l1 exact ex, srt l1 -> srt l2 -> plain l1 -> plain l2 -> (mult < 65536)%N -> d_post inq mult l2 l1 exact = Some ex ->
  (forall p, wt l2 p <= mult * wt l1 p)%N /\ (forall p, inq p = true -> (wt l2 p = mult * wt l1 p)%N) /\ (ex = true -> exact = true /\ forall p, (wt l2 p = mult * wt l1 p)%N).
Proof.
  intros inq mult l2. induction l2 as [|a2 l2 IH2]; intros l1; induction l1 as [|a l1 IH1]; intros exact ex S1 S2 P1 P2 M H.
  - cbn in H. injection H as <-. split; [intros p; cbn; lia|]. split; [intros p _; cbn; lia|]. intros E. apply andb_true_iff in E. split; [apply E|]. intros p. cbn. lia.
  - cbn [d_post] in H. destruct (forallb (fun a => negb (inq (arc_place a))) (a :: l1)) eqn:F; [|discriminate]. injection H as <-. split; [intros p; unfold wt at 1; cbn [get_arc]; lia|].
    split; [intros p Hp; rewrite (wt_none_q _ _ _ F Hp); unfold wt; cbn [get_arc]; lia|]. cbn [no_arcs]. rewrite andb_false_r. discriminate.
  - cbn [d_post] in H. discriminate.
  - cbn [d_post] in H. pose proof (wt_plain_head P1 S1) as W1. pose proof (wt_plain_head P2 S2) as W2. destruct (P1 a (or_introl eq_refl)) as (I1 & Z1 & B1). destruct (P2 a2 (or_introl eq_refl)) as (I2 & Z2 & B2).
    pose proof S1 as (A1 & S1'). pose proof S2 as (A2 & S2').
    destruct (Nat.ltb_spec (arc_place a) (arc_place a2)) as [L|L].
    + destruct (inq (arc_place a)) eqn:Q; [discriminate|]. destruct (IH1 false ex S1' S2 (plain_tl P1) P2 M H) as (K1 & K2 & K3).
      assert (Z : wt (a2 :: l2) (arc_place a) = 0%N) by (apply wt_below; assumption).
      split; [intros p; destruct (Nat.eq_dec p (arc_place a)) as [->|Hp]; [rewrite Z; lia|rewrite (@wt_after a l1 p S1 Hp); apply K1]|].
      split; [intros p Hp; destruct (Nat.eq_dec p (arc_place a)) as [->|Hp']; [congruence|rewrite (@wt_after a l1 p S1 Hp'); apply K2; exact Hp]|]. intros E. destruct (K3 E). discriminate.
    + destruct (Nat.eqb_spec (arc_place a) (arc_place a2)) as [E|E]; cbn [negb] in H; [|discriminate]. set (w := wrap32 (arc_weight a * mult)) in *. assert (Ew : w = (mult * arc_weight a)%N) by (unfold w; rewrite wrap_small by assumption; lia).
      destruct (inq (arc_place a2) && negb (w =? arc_weight a2)%N) eqn:Qe; [discriminate|]. destruct (N.ltb_spec w (arc_weight a2)) as [Lw|Lw]; [discriminate|].
      destruct (IH2 l1 _ ex S1' S2' (plain_tl P1) (plain_tl P2) M H) as (K1 & K2 & K3).
      split; [intros p; destruct (Nat.eq_dec p (arc_place a2)) as [->|Hp]; [rewrite W2; rewrite <- E; rewrite W1; lia|rewrite (@wt_after a2 l2 p S2 Hp), (@wt_after a l1 p S1) by congruence; apply K1]|].
      split.
      * intros p Hq. destruct (Nat.eq_dec p (arc_place a2)) as [->|Hp]; [|rewrite (@wt_after a2 l2 p S2 Hp), (@wt_after a l1 p S1) by congruence; apply K2; exact Hq].
        rewrite W2. rewrite <- E. rewrite W1. rewrite Hq in Qe. cbn [andb] in Qe. apply negb_false_iff, N.eqb_eq in Qe. lia.
      * intros Ex. destruct (K3 Ex) as (K6 & K7). apply andb_true_iff in K6. destruct K6 as (Ke & Kq). apply N.eqb_eq in Kq. split; [exact Ke|].
        intros p. destruct (Nat.eq_dec p (arc_place a2)) as [->|Hp]; [rewrite W2; rewrite <- E; rewrite W1; lia|rewrite (@wt_after a2 l2 p S2 Hp), (@wt_after a l1 p S1) by congruence; apply K7].
Qed.

(** ** The rule *)
Theorem rule_d_ok : forall inq reach loops b p t1 t2, good b -> weights16 b -> (loops = true -> no_inhibitors b) -> sound_result inq b (rule_d inq reach loops b p t1 t2).
Proof.
  intros inq reach loops b p t1 t2 G Wb Ni. unfold rule_d. destruct (Nat.eqb_spec t1 t2) as [E|Ne]; [apply result_refl; exact G|]. cbn [orb]. unfold has_id.
  destruct (existsb (Nat.eqb t1) (bp_cons (pl_of b p))) eqn:C1; [|apply result_refl; exact G]. destruct (existsb (Nat.eqb t2) (bp_cons (pl_of b p))) eqn:C2; [|apply result_refl; exact G]. cbn [negb orb].
  destruct (bt_skip (tr_of b t1) || bt_skip (tr_of b t2) || bt_inhib (tr_of b t1) || bt_inhib (tr_of b t2)) eqn:Fl; [apply result_refl; exact G|].
  apply orb_false_iff in Fl. destruct Fl as (Fl & I2). apply orb_false_iff in Fl. destruct Fl as (Fl & I1). apply orb_false_iff in Fl. destruct Fl as (Sk1 & Sk2).
  destruct (d_check inq reach loops (tr_of b t1) (tr_of b t2)) eqn:Ck; [|apply result_refl; exact G].
  apply existsb_in in C1, C2. destruct (cons_arc p t1 G C1) as (a1 & _ & Ha1 & _). destruct (cons_arc p t2 G C2) as (a2 & _ & Ha2 & _).
  assert (L1 : live b t1 = true) by (apply (@arc_live b t1 a1 G); left; exact Ha1). assert (L2 : live b t2 = true) by (apply (@arc_live b t2 a2 G); left; exact Ha2).
  assert (Pl : forall t, bt_inhib (tr_of b t) = false -> plain (bt_pre (tr_of b t)) /\ plain (bt_post (tr_of b t))).
  { intros t It. split; intros a Ha.
    - destruct (g_pre G t a Ha) as (_ & X & Y). split; [|split; [exact X|apply (Wb t); left; exact Ha]]. destruct (arc_inhib a); [destruct (Y eq_refl); congruence|reflexivity].
    - destruct (g_post G t a Ha) as (_ & X & Y). split; [exact Y|]. split; [exact X|]. apply (Wb t). right. exact Ha. }
  destruct (Pl t1 I1) as (P1 & Q1). destruct (Pl t2 I2) as (P2 & Q2).
  unfold d_check in Ck. destruct (length (bt_post (tr_of b t1)) <? length (bt_post (tr_of b t2))); [discriminate|]. destruct (length (bt_pre (tr_of b t2)) <? length (bt_pre (tr_of b t1))); [discriminate|].
  destruct (negb loops && _); [discriminate|]. destruct (d_pre inq (bt_pre (tr_of b t1)) (bt_pre (tr_of b t2)) 4294967295 false true) as [[k ex]|] eqn:Dp; [|discriminate].
  destruct (negb (k =? 1)%N && negb reach); [discriminate|]. destruct (negb loops && negb ex) eqn:Lx; [discriminate|].
  destruct (d_post inq k (bt_post (tr_of b t2)) (bt_post (tr_of b t1)) ex) as [ex'|] eqn:Dq; [|discriminate].
  assert (One : (1 <= 4294967295)%N) by lia. destruct (@d_pre_ok _ _ _ _ _ _ _ _ (g_spre G t1) (g_spre G t2) P1 P2 One Dp) as (K1 & K2 & K3 & K4 & K5).
  assert (Kb : (k < 65536)%N) by (apply K5; intros X; rewrite X in Ha1; destruct Ha1).
  destruct (@d_post_ok _ _ _ _ _ _ (g_spost G t1) (g_spost G t2) Q1 Q2 Kb Dq) as (R1 & R2 & R3).
  assert (NoI : forall t, bt_inhib (tr_of b t) = false -> forall q w, a_inh (atr_of (tr_of b t)) q = Some w -> False) by (intros t It q w Hw; destruct (@a_inh_flag b t q w G Hw); congruence).
  apply skip_transition_drop; [exact G|exact L2|]. intros b' G' F I T.
  assert (Ei : ext (an_init (anet_of b)) (an_init (anet_of b'))) by (apply init_same; exact I).
  assert (Sub : forall i x, an_tr (anet_of b') i = Some x -> an_tr (anet_of b) i = Some x) by (intros i x Hx; rewrite T in Hx; destruct (Nat.eqb i t2); [discriminate|exact Hx]).
  assert (T1 : an_tr (anet_of b') t1 = Some (atr_of (tr_of b t1))) by (rewrite T; destruct (Nat.eqb_spec t1 t2); [contradiction|apply tr_live; exact L1]).
  (* what t1 fired k times does *)
  assert (Run : forall m, aen (atr_of (tr_of b t2)) m -> arun (an_tr (anet_of b')) m (fun q => m q - k * a_in (atr_of (tr_of b t1)) q + k * a_out (atr_of (tr_of b t1)) q)%N).
  { intros m En. apply fire_kN with (i := t1); [exact T1|apply NoI; exact I1|]. intros q. destruct (En q) as (E1 & _). specialize (K2 q). cbn [atr_of a_in] in *. lia. }
  set (U := fun _ : nat => loops = true). set (E := fun q => loops = false \/ inq q = true).
  apply (@drop_transitions inq (anet_of b) (anet_of b') U E Ei Sub).
  - intros i x Hx. apply Sub, live_tr in Hx. destruct Hx as (-> & _). split.
    + intros q _. unfold U, E. destruct loops; auto.
    + intros q w Hw. unfold E. destruct loops; [|auto]. destruct (@a_inh_flag b i q w G Hw) as (X & _). rewrite (Ni eq_refl q) in X. discriminate.
  - intros q Hq. right. exact Hq.
  - intros m i x _ Hx En. destruct (Nat.eqb_spec i t2) as [Ex|Hi].
    + subst i. apply live_tr in Hx. destruct Hx as (-> & _). eexists. split; [apply (Run m En)|]. unfold afire. split; intros q Hq; destruct (En q) as (E1 & _); specialize (K2 q); specialize (R1 q); cbn [atr_of a_in a_out] in *.
      * lia.
      * destruct Hq as [Hq|Hq].
        -- subst loops. cbn [negb orb andb] in *. destruct ex; [|discriminate]. destruct ex'; [|discriminate]. destruct (K4 eq_refl) as (_ & _ & X & Y). destruct (R3 eq_refl) as (_ & Z). specialize (Y q). specialize (Z q). assert (Ek : k = 1%N) by (apply X; intros N; rewrite N in Ha1; destruct Ha1). subst k. lia.
        -- specialize (K3 q Hq). specialize (R2 q Hq). lia.
    + exists (afire x m). split; [|split; intros q _; [lia|reflexivity]]. apply arun_one with (i := i) (t := x); [rewrite T; destruct (Nat.eqb_spec i t2); [contradiction|exact Hx]|exact En|apply ext_refl].
Qed.
Theorem rule_d0_ok : forall inq b t1 t2, good b -> sound_result inq b (rule_d0 b t1 t2).
Proof.
  intros inq b t1 t2 G. unfold rule_d0. destruct (_ && _ && _) eqn:C; [|apply result_refl; exact G]. apply andb_true_iff in C. destruct C as (_ & C). apply andb_true_iff in C. destruct C as (C & C4). apply andb_true_iff in C. destruct C as (C & C3). apply andb_true_iff in C. destruct C as (C1 & C2).
  apply Nat.ltb_lt in C1. apply negb_true_iff in C2. destruct (bt_pre (tr_of b t2)) as [|] eqn:E1; [|discriminate]. destruct (bt_post (tr_of b t2)) as [|] eqn:E2; [|discriminate].
  apply skip_transition_drop; [exact G|apply live_spec; auto|]. intros b' G' F I T.
  apply (@drop_transitions inq (anet_of b) (anet_of b') (fun _ => True) (fun _ => True)); [apply init_same; exact I| | | |].
  - intros i x Hx. rewrite T in Hx. destruct (Nat.eqb i t2); [discriminate|exact Hx].
  - intros i x _. split; auto.
  - auto.
  - intros m i x _ Hx En. destruct (Nat.eqb_spec i t2) as [->|Hi].
    + apply live_tr in Hx. destruct Hx as (-> & _). exists m. split; [apply ar_nil, ext_refl|]. unfold afire, atr_of, wt. rewrite E1, E2. cbn [get_arc a_in a_out]. split; intros q _; lia.
    + exists (afire x m). split; [|split; intros q _; [lia|reflexivity]]. apply arun_one with (i := i) (t := x); [rewrite T; destruct (Nat.eqb_spec i t2); [contradiction|exact Hx]|exact En|apply ext_refl].
Qed.
