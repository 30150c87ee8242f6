(** Correctness of the elementary changes: initial marking, added and removed arcs. *)
From Verif Require Import Base BaseLemmas NetSpec NetModel BuilderModel RedTheory RedSpec RedModel RedProofs RedNet RedRules RedRuleJ RedAgg.
Set Implicit Arguments.

(** ** Changes of the initial marking only *)
Record only_init (b b' : builder) : Prop := {
  oi_pn : b_pnames b' = b_pnames b; oi_tn : b_tnames b' = b_tnames b; oi_tr : b_trans b' = b_trans b; oi_pl : b_places b' = b_places b; oi_len : length (b_init b') = length (b_init b) }.
Lemma only_init_refl : forall b, only_init b b.
Proof. intros b. constructor; reflexivity. Qed.
Lemma only_init_trans : forall a b c, only_init a b -> only_init b c -> only_init a c.
Proof. intros a b c [A1 A2 A3 A4 A5] [B1 B2 B3 B4 B5]. constructor; congruence. Qed.
Lemma only_init_set : forall b p v, only_init b (set_init b p v).
Proof. intros b p v. constructor; try reflexivity. cbn. apply upd_length. Qed.
Lemma only_init_good : forall b b', good b -> only_init b b' -> good b'.
Proof.
  intros b b' G [A1 A2 A3 A4 A5].
  assert (T : forall t, tr_of b' t = tr_of b t) by (intros t; unfold tr_of; rewrite A3; reflexivity).
  assert (P : forall t, pl_of b' t = pl_of b t) by (intros t; unfold pl_of; rewrite A4; reflexivity).
  constructor; intros *; rewrite ?A1, ?A2, ?A3, ?A4, ?A5, ?T, ?P; try apply G.
Qed.
Lemma only_init_tr : forall b b', only_init b b' -> forall t, an_tr (anet_of b') t = an_tr (anet_of b) t.
Proof. intros b b' [A1 A2 A3 A4 A5] t. cbn. unfold live, tr_of. rewrite A3. reflexivity. Qed.
Lemma only_init_places : forall b b', only_init b b' -> (forall p, pl_of b' p = pl_of b p) /\ (forall t, tr_of b' t = tr_of b t).
Proof. intros b b' [A1 A2 A3 A4 A5]. split; intros x; unfold pl_of, tr_of; rewrite ?A3, ?A4; reflexivity. Qed.

Lemma add_inits : forall (f : arc -> N) c l b, (forall a, In a l -> f a = (c * arc_weight a)%N /\ arc_inhib a = false /\ arc_place a < length (b_init b)) -> srt l ->
  fold_res (fun b a => add_init b (arc_place a) (f a)) l b = Throw \/
  exists b', fold_res (fun b a => add_init b (arc_place a) (f a)) l b = Ok b' /\ only_init b b' /\ forall q, init_at b' q = (init_at b q + c * wt l q)%N.
Proof.
  intros f c. induction l as [|a l IH]; intros b H Hs.
  - right. exists b. split; [reflexivity|]. split; [apply only_init_refl|]. intros q. cbn. lia.
  - cbn [fold_res]. destruct (H a (or_introl eq_refl)) as (Hf & Hi & Hr). unfold add_init at 1 3. unfold u32. destruct (N.ltb_spec (init_at b (arc_place a) + f a) 4294967296); cbn [bind]; [|left; reflexivity].
    pose proof Hs as (A & B). set (b1 := set_init b (arc_place a) (init_at b (arc_place a) + f a)).
    destruct (IH b1) as [E|(b' & E & O & V)]; [intros a' Ha'; destruct (H a' (or_intror Ha')) as (K1 & K2 & K3); split; [exact K1|split; [exact K2|]]; cbn; rewrite upd_length; exact K3|exact B|left; exact E|].
    right. exists b'. split; [exact E|]. split; [eapply only_init_trans; [apply only_init_set|exact O]|]. intros q. rewrite V, wt_cons by exact Hs. unfold b1. rewrite init_set by exact Hr. rewrite Nat.eqb_sym, Hi.
    destruct (Nat.eqb_spec (arc_place a) q) as [<-|Hq]; [|reflexivity]. rewrite (@wt_absent l (arc_place a) B); [rewrite Hf; lia|]. intros Hin. specialize (A _ Hin). lia.
Qed.
Lemma sub_inits : forall (f : arc -> N) c l b, (forall a, In a l -> f a = (c * arc_weight a)%N /\ arc_inhib a = false /\ arc_place a < length (b_init b) /\ (c * arc_weight a <= init_at b (arc_place a))%N) -> srt l ->
  exists b', fold_res (fun b a => sub_init b (arc_place a) (f a)) l b = Ok b' /\ only_init b b' /\ forall q, init_at b' q = (init_at b q - c * wt l q)%N.
Proof.
  intros f c. induction l as [|a l IH]; intros b H Hs.
  - exists b. split; [reflexivity|]. split; [apply only_init_refl|]. intros q. cbn. lia.
  - cbn [fold_res]. destruct (H a (or_introl eq_refl)) as (Hf & Hi & Hr & Hv). unfold sub_init at 1. rewrite Hf. destruct (N.ltb_spec (init_at b (arc_place a)) (c * arc_weight a)); [lia|]. cbn [bind].
    pose proof Hs as (A & B). set (b1 := set_init b (arc_place a) (init_at b (arc_place a) - c * arc_weight a)).
    assert (V1 : forall q, init_at b1 q = if Nat.eqb q (arc_place a) then (init_at b (arc_place a) - c * arc_weight a)%N else init_at b q) by (intros q; apply init_set; exact Hr).
    destruct (IH b1) as (b' & E & O & V).
    + intros a' Ha'. destruct (H a' (or_intror Ha')) as (K1 & K2 & K3 & K4). split; [exact K1|split; [exact K2|]]. split; [cbn; rewrite upd_length; exact K3|]. rewrite V1. destruct (Nat.eqb_spec (arc_place a') (arc_place a)) as [Q|Q]; [|exact K4].
      specialize (A _ (in_map arc_place _ _ Ha')). lia.
    + exact B.
    + exists b'. split; [exact E|]. split; [eapply only_init_trans; [apply only_init_set|exact O]|]. intros q. rewrite V, V1, wt_cons by exact Hs. rewrite Nat.eqb_sym, Hi.
      destruct (Nat.eqb_spec (arc_place a) q) as [<-|Hq]; [|reflexivity]. rewrite (@wt_absent l (arc_place a) B); [lia|]. intros Hin. specialize (A _ Hin). lia.
Qed.

(** ** Rule Q *)
Definition q_pre_ok (inq : nat -> bool) (b : builder) (a : arc) : Prop :=
  (0 < init_at b (arc_place a) / arc_weight a)%N /\ bp_inhib (pl_of b (arc_place a)) = false /\ inq (arc_place a) = false /\ length (bp_cons (pl_of b (arc_place a))) = 1.
Definition q_post_ok (inq : nat -> bool) (b : builder) (o : arc) : Prop := bp_inhib (pl_of b (arc_place o)) = false /\ inq (arc_place o) = false.
Lemma q_walk_ok : forall inq b pre post k k', q_walk inq b pre post k = Some k' -> srt pre -> srt post ->
  (forall a, In a pre -> q_pre_ok inq b a /\ (k' <= init_at b (arc_place a) / arc_weight a)%N) /\ (forall o, In o post -> q_post_ok inq b o) /\
  (forall a o, In a pre -> In o post -> arc_place a <> arc_place o) /\ (k <> 0 -> k' <= k)%N.
Proof.
  assert (Step : forall inq b a (k : N) n, n = (init_at b (arc_place a) / arc_weight a)%N ->
    (n =? 0)%N || bp_inhib (pl_of b (arc_place a)) || inq (arc_place a) || negb (length (bp_cons (pl_of b (arc_place a))) =? 1) = false ->
    q_pre_ok inq b a /\ (if (k =? 0)%N then n else N.min k n) <> 0%N /\ ((if (k =? 0)%N then n else N.min k n) <= n)%N /\ (k <> 0 -> (if (k =? 0)%N then n else N.min k n) <= k)%N).
  { intros inq b a k n En H. apply orb_false_iff in H. destruct H as (H & H4). apply orb_false_iff in H. destruct H as (H & H3). apply orb_false_iff in H. destruct H as (H1 & H2).
    apply N.eqb_neq in H1. apply negb_false_iff, Nat.eqb_eq in H4. split; [unfold q_pre_ok; rewrite <- En; repeat split; auto; apply N.neq_0_lt_0; exact H1|]. clear En. destruct (N.eqb_spec k 0); lia. }
  intros inq b. induction pre as [|a pre IHp]; induction post as [|o post IHo]; intros k k' H Hs1 Hs2.
  - cbn [q_walk] in H. injection H as <-. split; [intros a []|]. split; [intros o []|]. split; [intros a o []|lia].
  - cbn [q_walk] in H. destruct (bp_inhib (pl_of b (arc_place o)) || inq (arc_place o)) eqn:E; [discriminate|]. apply orb_false_iff in E. destruct Hs2 as (A2 & B2).
    destruct (IHo k k' H Hs1 B2) as (_ & K2 & _ & K4). split; [intros a []|]. split; [intros o' [<-|Ho']; [exact E|apply K2; exact Ho']|]. split; [intros a o' []|exact K4].
  - cbn [q_walk] in H. match type of H with (if ?c then _ else _) = _ => destruct c eqn:E; [discriminate|] end. destruct (Step inq b a k _ eq_refl E) as (S1 & S2 & S3 & S4).
    destruct Hs1 as (A1 & B1). destruct (IHp [] _ k' H B1 I) as (K1 & _ & _ & K4). specialize (K4 S2).
    split; [intros a' [<-|Ha']; [split; [exact S1|lia]|apply K1; exact Ha']|]. split; [intros o []|]. split; [intros a' o _ []|]. intros Hk. specialize (S4 Hk). lia.
  - cbn [q_walk] in H. pose proof Hs1 as (A1 & B1). pose proof Hs2 as (A2 & B2). destruct (Nat.ltb_spec (arc_place a) (arc_place o)) as [L|L]; [|destruct (Nat.ltb_spec (arc_place o) (arc_place a)) as [L'|L']; [|discriminate H]].
    + match type of H with (if ?c then _ else _) = _ => destruct c eqn:E; [discriminate|] end. destruct (Step inq b a k _ eq_refl E) as (S1 & S2 & S3 & S4).
      destruct (IHp (o :: post) _ k' H B1 Hs2) as (K1 & K2 & K3 & K4). specialize (K4 S2).
      split; [intros a' [<-|Ha']; [split; [exact S1|lia]|apply K1; exact Ha']|]. split; [exact K2|]. split; [|intros Hk; specialize (S4 Hk); lia].
      intros a' o' [<-|Ha'] Ho'; [|apply K3; assumption]. destruct Ho' as [<-|Ho']; [lia|]. specialize (A2 _ (in_map arc_place _ _ Ho')). lia.
    + destruct (bp_inhib (pl_of b (arc_place o)) || inq (arc_place o)) eqn:E; [discriminate|]. apply orb_false_iff in E.
      destruct (IHo k k' H Hs1 B2) as (K1 & K2 & K3 & K4). split; [exact K1|]. split; [intros o' [<-|Ho']; [exact E|apply K2; exact Ho']|]. split; [|exact K4].
      intros a' o' Ha' [<-|Ho']; [|apply K3; assumption]. destruct Ha' as [<-|Ha']; [lia|]. specialize (A1 _ (in_map arc_place _ _ Ha')). lia.
Qed.

Lemma single : forall (l : list nat) t u, length l = 1 -> In t l -> In u l -> u = t.
Proof. intros [|x [|y l]] t u H Ht Hu; try discriminate. destruct Ht as [<-|[]]. destruct Hu as [<-|[]]. reflexivity. Qed.
Lemma wt_in : forall l p, srt l -> wt l p <> 0%N -> exists a, In a l /\ arc_place a = p /\ arc_inhib a = false /\ wt l p = arc_weight a.
Proof.
  intros l p Hs H. unfold wt in *. destruct (get_arc l p) as [a|] eqn:E; [|congruence]. apply get_arc_in in E. destruct E as (A & B). exists a. destruct (arc_inhib a); [congruence|]. auto.
Qed.
Lemma in_wt : forall l a, srt l -> In a l -> arc_inhib a = false -> wt l (arc_place a) = arc_weight a.
Proof. intros l a Hs Ha Hi. unfold wt. rewrite (in_get_arc _ a Hs Ha), Hi. reflexivity. Qed.
Lemma no_inh_t : forall b t, good b -> bt_inhib (tr_of b t) = false -> forall a, In a (bt_pre (tr_of b t)) -> arc_inhib a = false.
Proof. intros b t G H a Ha. destruct (arc_inhib a) eqn:E; [|reflexivity]. destruct (g_pre G t a Ha) as (_ & _ & X). destruct (X E). congruence. Qed.
Lemma no_inh_p : forall b p, good b -> bp_inhib (pl_of b p) = false -> forall t x, an_tr (anet_of b) t = Some x -> a_inh x p = None.
Proof. intros b p G H t x Hx. apply live_tr in Hx. destruct Hx as (-> & _). destruct (a_inh (atr_of (tr_of b t)) p) as [w|] eqn:E; [|reflexivity]. destruct (a_inh_flag t p G E). congruence. Qed.
Lemma cons_zero : forall b p t x, good b -> an_tr (anet_of b) t = Some x -> ~ In t (bp_cons (pl_of b p)) -> a_in x p = 0%N.
Proof. intros b p t x G Hx H. apply live_tr in Hx. destruct Hx as (-> & _). rewrite a_in_of, (proj2 (in_arc_none p t G) H). reflexivity. Qed.

Theorem rule_q_ok : forall inq b t, good b -> sound_result inq b (rule_q inq b t).
Proof.
  intros inq b t G. unfold rule_q. destruct (bt_skip (tr_of b t)) eqn:Sk; [apply result_refl; exact G|]. destruct (bt_inhib (tr_of b t)) eqn:Ih; [apply result_refl; exact G|]. cbn [orb].
  destruct (match bt_pre (tr_of b t) with [] => true | _ => false end) eqn:Ne; [apply result_refl; exact G|].
  destruct (q_walk inq b (bt_pre (tr_of b t)) (bt_post (tr_of b t)) 0) as [k|] eqn:W; [|apply result_refl; exact G].
  destruct (N.eqb_spec k 0) as [_|Hk]; [apply result_refl; exact G|].
  destruct (q_walk_ok _ _ _ _ _ W (g_spre G t) (g_spost G t)) as (Hpre & Hpost & Hdis & _).
  assert (NI : forall a, In a (bt_pre (tr_of b t)) -> arc_inhib a = false) by (apply no_inh_t; assumption).
  assert (Lv : live b t = true).
  { destruct (bt_pre (tr_of b t)) as [|a l] eqn:E; [discriminate|]. apply (@arc_live b t a G). left. rewrite E. left. reflexivity. }
  assert (Rg : forall p, bp_skip (pl_of b p) = false -> p < length (b_init b)) by (intros p Hp; rewrite (g_ni G), <- (g_np G); apply pl_range; exact Hp).
  destruct (@sub_inits (fun a => arc_weight a * k)%N k (bt_pre (tr_of b t)) b) as (b1 & E1 & O1 & V1); [|apply (g_spre G)|].
  { intros a Ha. split; [lia|]. split; [apply NI; exact Ha|]. destruct (g_pre G t a Ha) as (P1 & P2 & _). split; [apply Rg; exact P1|]. destruct (Hpre a Ha) as (_ & Q).
    pose proof (N.mul_div_le (init_at b (arc_place a)) (arc_weight a) ltac:(lia)). nia. }
  rewrite E1. cbn [bind].
  destruct (@add_inits (fun a => arc_weight a * k)%N k (bt_post (tr_of b t)) b1) as [E2|(b2 & E2 & O2 & V2)]; [|apply (g_spost G)| |].
  { intros a Ha. split; [lia|]. destruct (g_post G t a Ha) as (P1 & P2 & P3). split; [exact P3|]. rewrite (oi_len O1). apply Rg. exact P1. }
  { rewrite E2. exact I. }
  rewrite E2. pose proof (only_init_trans O1 O2) as O. pose proof (only_init_good G O) as G2. apply result_same; [exact G|exact G2|].
  assert (Ta : forall p, a_in (atr_of (tr_of b t)) p <> 0%N -> exists a, In a (bt_pre (tr_of b t)) /\ arc_place a = p).
  { intros p Hp. destruct (@wt_in (bt_pre (tr_of b t)) p (g_spre G t) Hp) as (a & A1 & A2 & _). exists a. auto. }
  assert (Tb : forall p, a_out (atr_of (tr_of b t)) p <> 0%N -> exists a, In a (bt_post (tr_of b t)) /\ arc_place a = p).
  { intros p Hp. destruct (@wt_in (bt_post (tr_of b t)) p (g_spost G t) Hp) as (a & A1 & A2 & _). exists a. auto. }
  apply fire_initially with (i0 := t) (t0 := atr_of (tr_of b t)) (k := k).
  - apply tr_live. exact Lv.
  - intros p w Hw. destruct (a_inh_flag t p G Hw). congruence.
  - intros p. destruct (N.eq_dec (a_in (atr_of (tr_of b t)) p) 0) as [Z|Z]; [left; exact Z|]. destruct (N.eq_dec (a_out (atr_of (tr_of b t)) p) 0) as [Z'|Z']; [right; exact Z'|].
    destruct (Ta p Z) as (a & A1 & A2). destruct (Tb p Z') as (o & B1 & B2). exfalso. apply (Hdis a o A1 B1). congruence.
  - intros p Z. destruct (Ta p Z) as (a & A1 & A2). subst p. destruct (Hpre a A1) as ((Q1 & Q2 & Q3 & Q4) & _). split; [exact Q3|]. intros i x Hx. split; [|apply (@no_inh_p b (arc_place a) G Q2 i x Hx)].
    intros Hi. apply (@cons_zero b (arc_place a) i x G Hx). intros Hc. apply Hi. apply (@single _ t i Q4); [|exact Hc]. apply (g_cons G). apply in_map. exact A1.
  - intros p Z. destruct (Tb p Z) as (a & A1 & A2). subst p. destruct (Hpost a A1) as (Q1 & Q2). split; [exact Q2|]. intros i x Hx. apply (@no_inh_p b (arc_place a) G Q1 i x Hx).
  - intros p. destruct (N.eq_dec (a_in (atr_of (tr_of b t)) p) 0) as [Z|Z]; [rewrite Z; lia|]. destruct (@wt_in (bt_pre (tr_of b t)) p (g_spre G t) Z) as (a & A1 & <- & A3 & A4).
    change (a_in (atr_of (tr_of b t)) (arc_place a)) with (wt (bt_pre (tr_of b t)) (arc_place a)). rewrite A4. destruct (Hpre a A1) as (_ & Q). destruct (g_pre G t a A1) as (_ & P2 & _).
    pose proof (N.mul_div_le (init_at b (arc_place a)) (arc_weight a) ltac:(lia)). cbn [anet_of an_init]. nia.
  - intros p. cbn [anet_of an_init]. rewrite V2, V1. reflexivity.
  - intros i. apply only_init_tr. exact O.
Qed.

(** ** Removing and adding one arc *)
Lemma same_flags_pl : forall b p x, p < length (b_places b) -> bp_skip x = bp_skip (pl_of b p) -> bp_inhib x = bp_inhib (pl_of b p) -> same_flags b (set_pl b p x).
Proof. intros b p x Hp H1 H2 q. rewrite pl_set by exact Hp. destruct (Nat.eqb_spec q p) as [->|_]; [split; assumption|split; reflexivity]. Qed.
Lemma del_arc_places : forall l p q, srt l -> (In q (map arc_place (del_arc l p)) <-> In q (map arc_place l) /\ q <> p).
Proof.
  intros l p q Hs. rewrite !in_map_iff. split.
  - intros (a & <- & Ha). apply (proj1 (@del_arc_in l p a Hs)) in Ha. destruct Ha as (Ha & Hn). split; [exists a; auto|exact Hn].
  - intros ((a & <- & Ha) & Hn). exists a. split; [reflexivity|]. apply (proj2 (@del_arc_in l p a Hs)). auto.
Qed.
Lemma put_arc_places : forall l x q, In q (map arc_place (put_arc l x)) <-> q = arc_place x \/ In q (map arc_place l).
Proof.
  intros l x q. rewrite !in_map_iff. split.
  - intros (a & <- & Ha). apply put_arc_in in Ha. destruct Ha as [->|Ha]; [left; reflexivity|right; exists a; auto].
  - intros [->|(a & <- & Ha)]; [exists x; split; [reflexivity|apply put_arc_in; left; reflexivity]|exists a; split; [reflexivity|apply put_arc_in; right; exact Ha]].
Qed.
Lemma skip_in_arc_ok : forall b p t, good b -> In t (bp_cons (pl_of b p)) ->
  exists b', skip_in_arc b p t = Ok b' /\ good b' /\ frame b b' /\ b_init b' = b_init b /\ same_flags b b' /\
    (forall u, tr_of b' u = if Nat.eqb u t then with_pre (tr_of b t) (del_arc (bt_pre (tr_of b t)) p) else tr_of b u) /\
    (forall q, q <> p -> pl_of b' q = pl_of b q) /\ bp_prod (pl_of b' p) = bp_prod (pl_of b p) /\
    (forall u, In u (bp_cons (pl_of b' p)) <-> In u (bp_cons (pl_of b p)) /\ u <> t).
Proof.
  intros b p t G Hin. unfold skip_in_arc. destruct (erase_id_ok _ _ (g_scons G p) Hin) as (l & E & Sl & Ml). rewrite E. cbn [bind].
  destruct (cons_arc p t G Hin) as (a & Ea & Ha & Hp). rewrite Ea. cbn [some bind].
  assert (Rp : p < length (b_places b)) by (apply pl_range; rewrite <- Hp; apply (g_pre G t a Ha)).
  assert (Rt : t < length (b_trans b)) by (eapply in_pre_range; exact Ha).
  set (b1 := set_pl b p (with_cons (pl_of b p) l)). set (b' := rm_pre p b1 t).
  assert (T : forall u, tr_of b' u = if Nat.eqb u t then with_pre (tr_of b t) (del_arc (bt_pre (tr_of b t)) p) else tr_of b u) by (intros u; unfold b', rm_pre; rewrite tr_set by exact Rt; reflexivity).
  assert (P : forall q, pl_of b' q = if Nat.eqb q p then with_cons (pl_of b p) l else pl_of b q) by (intros q; change (pl_of b' q) with (pl_of b1 q); apply pl_set; exact Rp).
  assert (F : frame b b') by (eapply frame_trans; [apply frame_set_pl|apply frame_set_tr]).
  assert (Fl : same_flags b b') by (intros q; rewrite P; destruct (Nat.eqb_spec q p) as [->|_]; split; reflexivity).
  exists b'. split; [reflexivity|]. split; [|split; [exact F|split; [reflexivity|split; [exact Fl|split; [exact T|]]]]].
  - eapply good_intro; [exact G|exact F|reflexivity| | | | | | |].
    + intros u. rewrite T. destruct (Nat.eqb_spec u t) as [->|_]; [|apply (g_skip G)]. cbn [with_pre bt_skip bt_pre bt_post]. intros Hs. destruct (g_skip G t Hs) as (A & B). rewrite A in Ha. destruct Ha.
    + intros u x. rewrite T. destruct (Fl (arc_place x)) as (A1 & A2). rewrite A1, A2. destruct (Nat.eqb_spec u t) as [->|_]; [|apply (g_pre G)]. cbn [with_pre bt_pre bt_inhib]. intros Hx.
      apply (proj1 (@del_arc_in _ p x (g_spre G t))) in Hx. apply (g_pre G). apply Hx.
    + intros u x. rewrite T. destruct (Fl (arc_place x)) as (A1 & A2). rewrite A1. destruct (Nat.eqb_spec u t) as [->|_]; apply (g_post G).
    + intros u. rewrite T. destruct (Nat.eqb_spec u t) as [->|_]; [|split; [apply (g_spre G)|apply (g_spost G)]]. split; [apply del_arc_srt, (g_spre G)|apply (g_spost G)].
    + intros q. rewrite P. destruct (Nat.eqb_spec q p) as [->|_]; [split; [exact Sl|apply (g_sprod G)]|split; [apply (g_scons G)|apply (g_sprod G)]].
    + intros q u. rewrite P, T. destruct (Nat.eqb_spec q p) as [->|Hq]; cbn [with_cons bp_cons]; [rewrite Ml|]; rewrite (g_cons G); (destruct (Nat.eqb_spec u t) as [->|Hu]; cbn [with_pre bt_pre]; [rewrite del_arc_places by apply (g_spre G)|]; tauto).
    + intros q u. rewrite P, T. destruct (Nat.eqb_spec q p) as [->|Hq]; cbn [with_cons bp_prod]; rewrite (g_prod G); (destruct (Nat.eqb_spec u t) as [->|Hu]; reflexivity).
  - split; [intros q Hq; rewrite P; destruct (Nat.eqb_spec q p); [contradiction|reflexivity]|]. rewrite P, Nat.eqb_refl. split; [reflexivity|exact Ml].
Qed.
Lemma skip_out_arc_ok : forall b p t, good b -> In t (bp_prod (pl_of b p)) ->
  exists b', skip_out_arc b t p = Ok b' /\ good b' /\ frame b b' /\ b_init b' = b_init b /\ same_flags b b' /\
    (forall u, tr_of b' u = if Nat.eqb u t then with_post (tr_of b t) (del_arc (bt_post (tr_of b t)) p) else tr_of b u) /\
    (forall q, q <> p -> pl_of b' q = pl_of b q) /\ bp_cons (pl_of b' p) = bp_cons (pl_of b p) /\
    (forall u, In u (bp_prod (pl_of b' p)) <-> In u (bp_prod (pl_of b p)) /\ u <> t).
Proof.
  intros b p t G Hin. unfold skip_out_arc. destruct (erase_id_ok _ _ (g_sprod G p) Hin) as (l & E & Sl & Ml). rewrite E. cbn [bind].
  destruct (prod_arc p t G Hin) as (a & Ea & Ha & Hp). rewrite Ea. cbn [some bind].
  assert (Rp : p < length (b_places b)) by (apply pl_range; rewrite <- Hp; apply (g_post G t a Ha)).
  assert (Rt : t < length (b_trans b)) by (eapply in_post_range; exact Ha).
  set (b1 := set_pl b p (with_prod (pl_of b p) l)). set (b' := rm_post p b1 t).
  assert (T : forall u, tr_of b' u = if Nat.eqb u t then with_post (tr_of b t) (del_arc (bt_post (tr_of b t)) p) else tr_of b u) by (intros u; unfold b', rm_post; rewrite tr_set by exact Rt; reflexivity).
  assert (P : forall q, pl_of b' q = if Nat.eqb q p then with_prod (pl_of b p) l else pl_of b q) by (intros q; change (pl_of b' q) with (pl_of b1 q); apply pl_set; exact Rp).
  assert (F : frame b b') by (eapply frame_trans; [apply frame_set_pl|apply frame_set_tr]).
  assert (Fl : same_flags b b') by (intros q; rewrite P; destruct (Nat.eqb_spec q p) as [->|_]; split; reflexivity).
  exists b'. split; [reflexivity|]. split; [|split; [exact F|split; [reflexivity|split; [exact Fl|split; [exact T|]]]]].
  - eapply good_intro; [exact G|exact F|reflexivity| | | | | | |].
    + intros u. rewrite T. destruct (Nat.eqb_spec u t) as [->|_]; [|apply (g_skip G)]. cbn [with_post bt_skip bt_pre bt_post]. intros Hs. destruct (g_skip G t Hs) as (A & B). rewrite B in Ha. destruct Ha.
    + intros u x. rewrite T. destruct (Fl (arc_place x)) as (A1 & A2). rewrite A1, A2. destruct (Nat.eqb_spec u t) as [->|_]; apply (g_pre G).
    + intros u x. rewrite T. destruct (Fl (arc_place x)) as (A1 & A2). rewrite A1. destruct (Nat.eqb_spec u t) as [->|_]; [|apply (g_post G)]. cbn [with_post bt_post]. intros Hx.
      apply (proj1 (@del_arc_in _ p x (g_spost G t))) in Hx. apply (g_post G t). apply Hx.
    + intros u. rewrite T. destruct (Nat.eqb_spec u t) as [->|_]; [|split; [apply (g_spre G)|apply (g_spost G)]]. split; [apply (g_spre G)|apply del_arc_srt, (g_spost G)].
    + intros q. rewrite P. destruct (Nat.eqb_spec q p) as [->|_]; [split; [apply (g_scons G)|exact Sl]|split; [apply (g_scons G)|apply (g_sprod G)]].
    + intros q u. rewrite P, T. destruct (Nat.eqb_spec q p) as [->|Hq]; cbn [with_prod bp_cons]; rewrite (g_cons G); (destruct (Nat.eqb_spec u t) as [->|Hu]; reflexivity).
    + intros q u. rewrite P, T. destruct (Nat.eqb_spec q p) as [->|Hq]; cbn [with_prod bp_prod]; [rewrite Ml|]; rewrite (g_prod G); (destruct (Nat.eqb_spec u t) as [->|Hu]; cbn [with_post bt_post]; [rewrite del_arc_places by apply (g_spost G)|]; tauto).
  - split; [intros q Hq; rewrite P; destruct (Nat.eqb_spec q p); [contradiction|reflexivity]|]. rewrite P, Nat.eqb_refl. split; [reflexivity|exact Ml].
Qed.

(** the new weight of the arc at [p], or a new arc *)
Definition plus_arc (l : list arc) (p : nat) (w : N) : list arc :=
  match get_arc l p with Some a => set_weight l p (arc_weight a + w) | None => put_arc l (mkArc p w false) end.
Lemma plus_arc_srt : forall l p w, srt l -> srt (plus_arc l p w).
Proof.
  intros l p w Hs. unfold plus_arc. destruct (get_arc l p) eqn:E; [apply set_weight_srt; exact Hs|]. apply put_arc_srt; [exact Hs|]. apply (@get_arc_none l p Hs). exact E.
Qed.
Lemma plus_arc_places : forall l p w q, srt l -> (In q (map arc_place (plus_arc l p w)) <-> q = p \/ In q (map arc_place l)).
Proof.
  intros l p w q Hs. unfold plus_arc. destruct (get_arc l p) eqn:E; [|apply put_arc_places]. rewrite set_weight_places. split; [tauto|]. intros [->|H]; [|exact H]. apply get_arc_in in E. destruct E as (A & <-). apply in_map. exact A.
Qed.
Lemma plus_arc_in : forall l p w a, srt l -> In a (plus_arc l p w) -> In a l \/ (arc_place a = p /\ exists v, arc_weight a = (v + w)%N /\ (arc_inhib a = true -> exists a0, In a0 l /\ arc_place a0 = p /\ arc_inhib a0 = true)).
Proof.
  intros l p w a Hs H. unfold plus_arc in H. destruct (get_arc l p) as [x|] eqn:E.
  - apply set_weight_in in H; [|exact Hs]. destruct H as [(A & _)|(A & B & a0 & C & D & D')]; [left; exact A|right]. split; [exact A|]. exists (arc_weight x). split; [exact B|]. intros Hi. exists a0. split; [exact C|split; [exact D|congruence]].
  - apply put_arc_in in H. destruct H as [->|H]; [right|left; exact H]. split; [reflexivity|]. exists 0%N. split; [reflexivity|discriminate].
Qed.
Lemma get_plus : forall l p w q, srt l -> get_arc (plus_arc l p w) q = if Nat.eqb q p then Some (mkArc p (match get_arc l p with Some a => arc_weight a | None => 0 end + w) (match get_arc l p with Some a => arc_inhib a | None => false end)) else get_arc l q.
Proof.
  intros l p w q Hs. unfold plus_arc. destruct (get_arc l p) as [x|] eqn:E.
  - rewrite get_set by exact Hs. destruct (Nat.eqb_spec q p) as [->|Hq]; [|reflexivity]. rewrite E. apply get_arc_in in E. destruct E as (_ & <-). reflexivity.
  - rewrite get_put; [reflexivity|exact Hs|]. cbn [arc_place]. apply (@get_arc_none l p Hs). exact E.
Qed.
Lemma add_out_ok : forall b t p w, good b -> live b t = true -> bp_skip (pl_of b p) = false -> (0 < w)%N ->
  add_out b t p w = Throw \/
  exists b', add_out b t p w = Ok b' /\ good b' /\ frame b b' /\ b_init b' = b_init b /\ same_flags b b' /\
    (forall u, tr_of b' u = if Nat.eqb u t then with_post (tr_of b t) (plus_arc (bt_post (tr_of b t)) p w) else tr_of b u) /\
    (forall q, q <> p -> pl_of b' q = pl_of b q) /\ bp_cons (pl_of b' p) = bp_cons (pl_of b p).
Proof.
  intros b t p w G Lv Hp Hw. pose proof (pl_range _ _ Hp) as Rp. apply live_spec in Lv. destruct Lv as (Rt & Sk). unfold add_out. destruct (N.eqb_spec w 0) as [Z|_]; [lia|].
  assert (Key : forall b', frame b b' -> b_init b' = b_init b -> same_flags b b' ->
    (forall u, tr_of b' u = if Nat.eqb u t then with_post (tr_of b t) (plus_arc (bt_post (tr_of b t)) p w) else tr_of b u) ->
    (forall q, bp_cons (pl_of b' q) = bp_cons (pl_of b q)) -> (forall q, sorted (bp_prod (pl_of b' q))) ->
    (forall q u, In u (bp_prod (pl_of b' q)) <-> In u (bp_prod (pl_of b q)) \/ (q = p /\ u = t)) -> good b').
  { intros b' F I Fl T C S' M. eapply good_intro; [exact G|exact F|congruence| | | | | | |].
    - intros u. rewrite T. destruct (Nat.eqb_spec u t) as [->|_]; [|apply (g_skip G)]. cbn [with_post bt_skip]. congruence.
    - intros u x. rewrite T. destruct (Fl (arc_place x)) as (A1 & A2). rewrite A1, A2. destruct (Nat.eqb_spec u t) as [->|_]; apply (g_pre G).
    - intros u x. rewrite T. destruct (Fl (arc_place x)) as (A1 & A2). rewrite A1. destruct (Nat.eqb_spec u t) as [->|_]; [|apply (g_post G)]. cbn [with_post bt_post]. intros Hx.
      apply plus_arc_in in Hx; [|apply (g_spost G)]. destruct Hx as [Hx|(-> & v & E & Hi)]; [apply (g_post G t); exact Hx|]. split; [exact Hp|]. split; [lia|]. destruct (arc_inhib x); [|reflexivity].
      destruct (Hi eq_refl) as (a0 & B1 & _ & B2). destruct (g_post G t a0 B1) as (_ & _ & X). congruence.
    - intros u. rewrite T. destruct (Nat.eqb_spec u t) as [->|_]; [|split; [apply (g_spre G)|apply (g_spost G)]]. split; [apply (g_spre G)|apply plus_arc_srt, (g_spost G)].
    - intros q. rewrite C. split; [apply (g_scons G)|apply S'].
    - intros q u. rewrite C, T, (g_cons G). destruct (Nat.eqb_spec u t) as [->|_]; reflexivity.
    - intros q u. rewrite M, T, (g_prod G). destruct (Nat.eqb_spec u t) as [->|Hu]; cbn [with_post bt_post]; [rewrite plus_arc_places by apply (g_spost G)|]; tauto. }
  unfold out_arc. destruct (get_arc (bt_post (tr_of b t)) p) as [a|] eqn:E.
  - unfold u32. destruct (N.ltb_spec (arc_weight a + w) 4294967296); cbn [bind]; [|left; reflexivity]. right.
    assert (T : forall u, tr_of (set_tr b t (with_post (tr_of b t) (set_weight (bt_post (tr_of b t)) p (arc_weight a + w)))) u = if Nat.eqb u t then with_post (tr_of b t) (plus_arc (bt_post (tr_of b t)) p w) else tr_of b u).
    { intros u. rewrite tr_set by exact Rt. unfold plus_arc. rewrite E. reflexivity. }
    eexists. split; [reflexivity|]. split; [apply Key|]; try reflexivity; try exact T; try (apply frame_set_tr); try (intros q; split; reflexivity).
    + apply (g_sprod G).
    + intros q u. change (In u (bp_prod (pl_of b q)) <-> In u (bp_prod (pl_of b q)) \/ q = p /\ u = t). split; [tauto|]. intros [H'|(-> & ->)]; [exact H'|]. apply (@arc_prod b p t a G E).
    + split; [apply frame_set_tr|]. split; [reflexivity|]. split; [intros q; split; reflexivity|]. split; [exact T|]. split; reflexivity.
  - unfold u32. destruct (N.ltb_spec w 4294967296); cbn [bind]; [|left; reflexivity]. right.
    set (b1 := set_tr b t (with_post (tr_of b t) (put_arc (bt_post (tr_of b t)) (mkArc p w false)))). set (b' := set_pl b1 p (with_prod (pl_of b1 p) (insert_id (bp_prod (pl_of b1 p)) t))).
    assert (T : forall u, tr_of b' u = if Nat.eqb u t then with_post (tr_of b t) (plus_arc (bt_post (tr_of b t)) p w) else tr_of b u).
    { intros u. change (tr_of b' u) with (tr_of b1 u). unfold b1. rewrite tr_set by exact Rt. unfold plus_arc. rewrite E. reflexivity. }
    assert (P : forall q, pl_of b' q = if Nat.eqb q p then with_prod (pl_of b p) (insert_id (bp_prod (pl_of b p)) t) else pl_of b q) by (intros q; apply (pl_set b1); exact Rp).
    assert (Ni : ~ In t (bp_prod (pl_of b p))) by (apply (proj1 (@out_arc_none b p t G)); exact E).
    destruct (insert_id_ok _ t (g_sprod G p) Ni) as (S1 & M1).
    assert (F : frame b b') by (eapply frame_trans; [apply frame_set_tr|apply frame_set_pl]).
    assert (Fl : same_flags b b') by (intros q; rewrite P; destruct (Nat.eqb_spec q p) as [->|_]; split; reflexivity).
    exists b'. split; [reflexivity|]. split; [apply Key|]; try exact T; try exact F; try exact Fl; try reflexivity.
    + intros q. rewrite P. destruct (Nat.eqb_spec q p) as [->|_]; reflexivity.
    + intros q. rewrite P. destruct (Nat.eqb_spec q p) as [->|_]; [exact S1|apply (g_sprod G)].
    + intros q u. rewrite P. destruct (Nat.eqb_spec q p) as [->|Hq]; cbn [with_prod bp_prod]; [rewrite M1; tauto|tauto].
    + split; [exact F|]. split; [reflexivity|]. split; [exact Fl|]. split; [exact T|]. split; [intros q Hq; rewrite P; destruct (Nat.eqb_spec q p); [contradiction|reflexivity]|rewrite P, Nat.eqb_refl; reflexivity].
Qed.
Lemma add_in_ok : forall b t p w, good b -> live b t = true -> bp_skip (pl_of b p) = false -> (0 < w)%N ->
  (forall a, in_arc b p t = Some a -> arc_inhib a = false) ->
  add_in b p t w = Throw \/
  exists b', add_in b p t w = Ok b' /\ good b' /\ frame b b' /\ b_init b' = b_init b /\ same_flags b b' /\
    (forall u, tr_of b' u = if Nat.eqb u t then with_pre (tr_of b t) (plus_arc (bt_pre (tr_of b t)) p w) else tr_of b u) /\
    (forall q, q <> p -> pl_of b' q = pl_of b q) /\ bp_prod (pl_of b' p) = bp_prod (pl_of b p).
Proof.
  intros b t p w G Lv Hp Hw HI. pose proof (pl_range _ _ Hp) as Rp. apply live_spec in Lv. destruct Lv as (Rt & Sk). unfold add_in. destruct (N.eqb_spec w 0) as [Z|_]; [lia|].
  assert (Key : forall b', frame b b' -> b_init b' = b_init b -> same_flags b b' ->
    (forall u, tr_of b' u = if Nat.eqb u t then with_pre (tr_of b t) (plus_arc (bt_pre (tr_of b t)) p w) else tr_of b u) ->
    (forall q, bp_prod (pl_of b' q) = bp_prod (pl_of b q)) -> (forall q, sorted (bp_cons (pl_of b' q))) ->
    (forall q u, In u (bp_cons (pl_of b' q)) <-> In u (bp_cons (pl_of b q)) \/ (q = p /\ u = t)) -> good b').
  { intros b' F I Fl T C S' M. eapply good_intro; [exact G|exact F|congruence| | | | | | |].
    - intros u. rewrite T. destruct (Nat.eqb_spec u t) as [->|_]; [|apply (g_skip G)]. cbn [with_pre bt_skip]. congruence.
    - intros u x. rewrite T. destruct (Fl (arc_place x)) as (A1 & A2). rewrite A1, A2. destruct (Nat.eqb_spec u t) as [->|_]; [|apply (g_pre G)]. cbn [with_pre bt_pre bt_inhib]. intros Hx.
      apply plus_arc_in in Hx; [|apply (g_spre G)]. destruct Hx as [Hx|(-> & v & E & Hi)]; [apply (g_pre G t); exact Hx|]. split; [exact Hp|]. split; [lia|]. intros X. destruct (Hi X) as (a0 & B1 & B0 & B2).
      rewrite <- B0. apply (g_pre G t a0 B1). exact B2.
    - intros u x. rewrite T. destruct (Fl (arc_place x)) as (A1 & A2). rewrite A1. destruct (Nat.eqb_spec u t) as [->|_]; apply (g_post G).
    - intros u. rewrite T. destruct (Nat.eqb_spec u t) as [->|_]; [|split; [apply (g_spre G)|apply (g_spost G)]]. split; [apply plus_arc_srt, (g_spre G)|apply (g_spost G)].
    - intros q. rewrite C. split; [apply S'|apply (g_sprod G)].
    - intros q u. rewrite M, T, (g_cons G). destruct (Nat.eqb_spec u t) as [->|Hu]; cbn [with_pre bt_pre]; [rewrite plus_arc_places by apply (g_spre G)|]; tauto.
    - intros q u. rewrite C, T, (g_prod G). destruct (Nat.eqb_spec u t) as [->|_]; reflexivity. }
  unfold in_arc. destruct (get_arc (bt_pre (tr_of b t)) p) as [a|] eqn:E.
  - unfold u32. destruct (N.ltb_spec (arc_weight a + w) 4294967296); cbn [bind]; [|left; reflexivity]. right.
    assert (T : forall u, tr_of (set_tr b t (with_pre (tr_of b t) (set_weight (bt_pre (tr_of b t)) p (arc_weight a + w)))) u = if Nat.eqb u t then with_pre (tr_of b t) (plus_arc (bt_pre (tr_of b t)) p w) else tr_of b u).
    { intros u. rewrite tr_set by exact Rt. unfold plus_arc. rewrite E. reflexivity. }
    eexists. split; [reflexivity|]. split; [apply Key|]; try reflexivity; try exact T; try (apply frame_set_tr); try (intros q; split; reflexivity).
    + apply (g_scons G).
    + intros q u. change (In u (bp_cons (pl_of b q)) <-> In u (bp_cons (pl_of b q)) \/ q = p /\ u = t). split; [tauto|]. intros [H'|(-> & ->)]; [exact H'|]. apply (@arc_cons b p t a G E).
    + split; [apply frame_set_tr|]. split; [reflexivity|]. split; [intros q; split; reflexivity|]. split; [exact T|]. split; reflexivity.
  - unfold u32. destruct (N.ltb_spec w 4294967296); cbn [bind]; [|left; reflexivity]. right.
    set (b1 := set_tr b t (with_pre (tr_of b t) (put_arc (bt_pre (tr_of b t)) (mkArc p w false)))). set (b' := set_pl b1 p (with_cons (pl_of b1 p) (insert_id (bp_cons (pl_of b1 p)) t))).
    assert (T : forall u, tr_of b' u = if Nat.eqb u t then with_pre (tr_of b t) (plus_arc (bt_pre (tr_of b t)) p w) else tr_of b u).
    { intros u. change (tr_of b' u) with (tr_of b1 u). unfold b1. rewrite tr_set by exact Rt. unfold plus_arc. rewrite E. reflexivity. }
    assert (P : forall q, pl_of b' q = if Nat.eqb q p then with_cons (pl_of b p) (insert_id (bp_cons (pl_of b p)) t) else pl_of b q) by (intros q; apply (pl_set b1); exact Rp).
    assert (Ni : ~ In t (bp_cons (pl_of b p))) by (apply (proj1 (@in_arc_none b p t G)); exact E).
    destruct (insert_id_ok _ t (g_scons G p) Ni) as (S1 & M1).
    assert (F : frame b b') by (eapply frame_trans; [apply frame_set_tr|apply frame_set_pl]).
    assert (Fl : same_flags b b') by (intros q; rewrite P; destruct (Nat.eqb_spec q p) as [->|_]; split; reflexivity).
    exists b'. split; [reflexivity|]. split; [apply Key|]; try exact T; try exact F; try exact Fl; try reflexivity.
    + intros q. rewrite P. destruct (Nat.eqb_spec q p) as [->|_]; reflexivity.
    + intros q. rewrite P. destruct (Nat.eqb_spec q p) as [->|_]; [exact S1|apply (g_scons G)].
    + intros q u. rewrite P. destruct (Nat.eqb_spec q p) as [->|Hq]; cbn [with_cons bp_cons]; [rewrite M1; tauto|tauto].
    + split; [exact F|]. split; [reflexivity|]. split; [exact Fl|]. split; [exact T|]. split; [intros q Hq; rewrite P; destruct (Nat.eqb_spec q p); [contradiction|reflexivity]|rewrite P, Nat.eqb_refl; reflexivity].
Qed.
