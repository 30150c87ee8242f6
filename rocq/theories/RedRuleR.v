(** Proofs about rule R. *)
From Verif Require Import Base BaseLemmas NetSpec NetModel BuilderModel RedTheory RedFuse RedSpec RedModel RedModelR RedProofs RedNet RedRules RedOps RedRuleA RedNew.
Set Implicit Arguments.

Lemma left_in : forall p w l q, In q (map arc_place (left_over p w l)) -> In q (map arc_place l).
Proof.
  intros p w. induction l as [|a l IH]; intros q H; [exact H|]. unfold left_over in H. cbn [flat_map] in H. rewrite map_app, in_app_iff in H. cbn [map In].
  destruct H as [H|H]; [|right; apply IH; exact H]. left. destruct (Nat.eqb_spec (arc_place a) p) as [E|_]; [destruct (w <? arc_weight a)%N; cbn in H; [|contradiction]|]; cbn in H; destruct H as [H|[]]; congruence.
Qed.
Lemma left_srt : forall p w l, srt l -> srt (left_over p w l).
Proof.
  intros p w. induction l as [|a l IH]; intros Hs; [exact I|]. destruct Hs as (A & B). specialize (IH B). unfold left_over. cbn [flat_map]. fold (left_over p w l).
  assert (L : forall y, In y (map arc_place (left_over p w l)) -> arc_place a < y) by (intros y Hy; apply A; eapply left_in; exact Hy).
  destruct (Nat.eqb_spec (arc_place a) p) as [E|_]; [destruct (w <? arc_weight a)%N; cbn [app]; [|exact IH]|cbn [app]]; (split; [|exact IH]); [rewrite E in L; exact L|exact L].
Qed.
Lemma left_pos : forall p w l, pos l -> pos (left_over p w l).
Proof.
  intros p w l H a Ha. apply in_flat_map in Ha. destruct Ha as (x & Hx & Ha). specialize (H x Hx). destruct (Nat.eqb (arc_place x) p); [destruct (N.ltb_spec w (arc_weight x)); [|destruct Ha]|]; destruct Ha as [<-|[]]; cbn; lia.
Qed.
Lemma left_get : forall p w l q, srt l -> get_arc (left_over p w l) q =
  if Nat.eqb q p then match get_arc l p with Some a => if (w <? arc_weight a)%N then Some (mkArc p (arc_weight a - w) (arc_inhib a)) else None | None => None end else get_arc l q.
Proof.
  intros p w. induction l as [|a l IH]; intros q Hs; [cbn; destruct (Nat.eqb q p); reflexivity|].
  pose proof (left_srt p w (a :: l) Hs) as Hl. rewrite !get_cons by exact Hs. destruct Hs as (A & B). specialize (IH q B).
  unfold left_over in *. cbn [flat_map] in *. fold (left_over p w l) in *. rewrite (Nat.eqb_sym p).
  destruct (Nat.eqb_spec (arc_place a) p) as [E|E].
  - destruct (w <? arc_weight a)%N; cbn [app] in *.
    + rewrite get_cons by exact Hl. cbn [arc_place]. destruct (Nat.eqb_spec q p) as [Eq|Hq]; [reflexivity|]. rewrite IH. destruct (Nat.eqb_spec q (arc_place a)); [congruence|reflexivity].
    + rewrite IH. destruct (Nat.eqb_spec q p) as [Eq|Hq].
      * assert (Z : get_arc l p = None) by (apply get_arc_none; [exact B|]; intros Hin; specialize (A _ Hin); lia). rewrite Z. reflexivity.
      * destruct (Nat.eqb_spec q (arc_place a)); [congruence|reflexivity].
  - cbn [app] in *. rewrite get_cons by exact Hl. rewrite IH. destruct (Nat.eqb_spec q (arc_place a)) as [->|Hq]; [|reflexivity].
    destruct (Nat.eqb_spec (arc_place a) p); [contradiction|reflexivity].
Qed.

Lemma nodup_app : forall (l1 l2 : list nat), NoDup l1 -> NoDup l2 -> (forall v, In v l1 -> ~ In v l2) -> NoDup (l1 ++ l2).
Proof.
  induction l1 as [|x l1 IH]; intros l2 N1 N2 D; [exact N2|]. inversion N1; subst. cbn. constructor.
  - intros H. apply in_app_iff in H. destruct H as [H|H]; [contradiction|]. apply (D x (or_introl eq_refl) H).
  - apply IH; [assumption|exact N2|]. intros v Hv. apply D. right. exact Hv.
Qed.

Section R.
Variable inq : nat -> bool.
Variable b0 : builder.
Variable p : nat.
Let C : list nat := bp_cons (pl_of b0 p).
Definition con_w (c : nat) : N := wt (bt_pre (tr_of b0 c)) p.
(** what the checks establish about the consumers *)
Record r_consumer (c : nat) : Prop := {
  rc_pre : exists a, bt_pre (tr_of b0 c) = [a] /\ arc_place a = p /\ arc_inhib a = false /\ (0 < arc_weight a)%N;
  rc_out : ~ In p (map arc_place (bt_post (tr_of b0 c)));
  rc_post : forall o, In o (bt_post (tr_of b0 c)) -> inq (arc_place o) = false /\ bp_inhib (pl_of b0 (arc_place o)) = false }.
Hypothesis Hcs : forall c, In c C -> r_consumer c.
Hypothesis Hsk : bp_skip (pl_of b0 p) = false.
Hypothesis Hih : bp_inhib (pl_of b0 p) = false.
Hypothesis Hq : inq p = false.

Record rinv (b : builder) (sk : list nat) : Prop := {
  ri_good : good b;
  ri_free : free b sk;
  ri_fl : same_flags b0 b;
  ri_cons : bp_cons (pl_of b p) = C;
  ri_con : forall c, In c C -> tr_of b c = tr_of b0 c;
  ri_prod : forall u, In u (bp_prod (pl_of b p)) -> bt_inhib (tr_of b u) = false }.

Lemma con_in : forall b sk c, rinv b sk -> In c C -> live b c = true.
Proof.
  intros b sk c R Hc. destruct (rc_pre (Hcs c Hc)) as (a & E & _). apply (@arc_live b c a (ri_good R)). left. rewrite (ri_con R c Hc), E. left. reflexivity.
Qed.
Lemma con_weight : forall c a, In c C -> bt_pre (tr_of b0 c) = [a] -> arc_weight a = con_w c.
Proof.
  intros c a Hc E. destruct (rc_pre (Hcs c Hc)) as (a' & E' & Ep & Ei & _). assert (a' = a) by congruence. subst a'. unfold con_w, wt. rewrite E. cbn [get_arc]. rewrite Ep, Nat.ltb_irrefl, Nat.eqb_refl, Ei. reflexivity.
Qed.

(** the state after new transitions were made for the consumers [cs] *)
Record fused_to (cs : list nat) (prod : btrans) (b : builder) (b' : builder) (sk' new : list nat) : Prop := {
  fd_inv : rinv b' sk';
  fd_init : b_init b' = b_init b;
  fd_keep : forall v, live b v = true -> live b' v = true /\ tr_of b' v = tr_of b v;
  fd_new : forall c, In c cs -> exists j, live b j = false /\ live b' j = true /\ aeq (fused p (con_w c) (atr_of prod) (atr_of (tr_of b0 c))) (atr_of (tr_of b' j));
  fd_all : forall j, live b' j = true -> live b j = true \/ exists c, In c cs /\ aeq (fused p (con_w c) (atr_of prod) (atr_of (tr_of b0 c))) (atr_of (tr_of b' j));
  fd_nodup : NoDup new;
  fd_len : length new <= length cs;
  fd_todo : forall j, In j new -> live b j = false /\ In j (bp_prod (pl_of b' p)) /\ (wt (bt_post (tr_of b' j)) p < wt (bt_post prod) p)%N;
  fd_prod : forall v, In v (bp_prod (pl_of b' p)) -> In v (bp_prod (pl_of b p)) \/ In v new }.

Lemma prod_wt : forall b v, good b -> (In v (bp_prod (pl_of b p)) <-> (0 < wt (bt_post (tr_of b v)) p)%N).
Proof.
  intros b v G. rewrite (g_prod G). split.
  - intros H. apply in_map_iff in H. destruct H as (a & Ea & Ha). destruct (g_post G v a Ha) as (_ & W & I). rewrite <- Ea, (@in_wt _ a (g_spost G v) Ha I). exact W.
  - intros H. destruct (@wt_in (bt_post (tr_of b v)) p (g_spost G v)) as (a & Ha & Ea & _); [lia|]. rewrite <- Ea. apply in_map. exact Ha.
Qed.

Lemma r_fuse_ok : forall b sk todo u c, rinv b sk -> In c C -> In u (bp_prod (pl_of b p)) -> (con_w c <= wt (bt_post (tr_of b u)) p)%N ->
  r_fuse p (tr_of b u) (b, sk, todo) c = Throw \/
  exists b' sk' new, r_fuse p (tr_of b u) (b, sk, todo) c = Ok (b', sk', new ++ todo) /\ fused_to [c] (tr_of b u) b b' sk' new.
Proof.
  intros b sk todo u c R Hc Hu Hw. pose proof (ri_good R) as G. unfold r_fuse.
  destruct (new_slot b sk) as ((b1, id), sk1) eqn:En. destruct (new_slot_ok G (ri_free R) En) as (G1 & Hid & Ep & Eo & Lid & Len & Pl & In1 & Pn & T1 & L1 & Fr1 & Nid & Inc).
  rewrite !T1. rewrite T1 in Ep, Eo. rewrite (ri_con R c Hc).
  destruct (rc_pre (Hcs c Hc)) as (a & Epre & Ea & Ia & Wa). rewrite Epre. cbn [bind]. rewrite (con_weight c Hc Epre).
  pose proof (ri_con R c Hc) as Ec.
  assert (Ps : srt (bt_post (tr_of b0 c)) /\ pos (bt_post (tr_of b0 c)) /\ forall o, In o (bt_post (tr_of b0 c)) -> bp_skip (pl_of b (arc_place o)) = false /\ arc_inhib o = false).
  { rewrite <- Ec. split; [apply (g_spost G)|]. split; [intros o Ho; apply (g_post G c o Ho)|]. intros o Ho. destruct (g_post G c o Ho) as (A & _ & B). split; assumption. }
  destruct Ps as (Ps1 & Ps2 & Ps3).
  rewrite Ep, Eo.
  destruct (@add_arcs_ok (bt_post (tr_of b0 c)) []) as [E|(l1 & E & S1 & P1 & Gt1)]; try assumption; [exact I|intros x []|intros q x y Hx; discriminate|rewrite E; left; reflexivity|]. rewrite E. cbn [bind].
  assert (Pu : srt (bt_pre (tr_of b u)) /\ pos (bt_pre (tr_of b u))) by (split; [apply (g_spre G)|intros x Hx; apply (g_pre G u x Hx)]). destruct Pu as (Pu1 & Pu2).
  destruct (@add_arcs_ok (bt_pre (tr_of b u)) []) as [E2|(l2 & E2 & S2 & P2 & Gt2)]; try assumption; [exact I|intros x []|intros q x y Hx; discriminate|rewrite E2; left; reflexivity|]. rewrite E2. cbn [bind].
  assert (Po : srt (bt_post (tr_of b u)) /\ pos (bt_post (tr_of b u))) by (split; [apply (g_spost G)|intros x Hx; apply (g_post G u x Hx)]). destruct Po as (Po1 & Po2).
  assert (Io : forall q x, get_arc (bt_post (tr_of b u)) q = Some x -> arc_inhib x = false) by (intros q x Hx; apply get_arc_in in Hx; destruct Hx as (Hx & _); apply (g_post G u x Hx)).
  assert (Ic : forall q x, get_arc (bt_post (tr_of b0 c)) q = Some x -> arc_inhib x = false) by (intros q x Hx; apply get_arc_in in Hx; destruct Hx as (Hx & _); apply (Ps3 x Hx)).
  set (L := left_over p (con_w c) (bt_post (tr_of b u))) in *.
  assert (GL : forall q, get_arc L q = if Nat.eqb q p then match get_arc (bt_post (tr_of b u)) p with Some a => if (con_w c <? arc_weight a)%N then Some (mkArc p (arc_weight a - con_w c) (arc_inhib a)) else None | None => None end else get_arc (bt_post (tr_of b u)) q) by (intros q; apply left_get; exact Po1).
  assert (IL : forall q x, get_arc L q = Some x -> arc_inhib x = false).
  { intros q x. rewrite GL. destruct (Nat.eqb q p); [|apply Io]. destruct (get_arc (bt_post (tr_of b u)) p) as [y|] eqn:Ey; [|discriminate]. destruct (con_w c <? arc_weight y)%N; [|discriminate]. intros [= <-]. cbn. apply (Io _ _ Ey). }
  assert (I1 : forall q x, get_arc l1 q = Some x -> arc_inhib x = false).
  { intros q x. rewrite Gt1. destruct (get_arc (bt_post (tr_of b0 c)) q) as [y|] eqn:Ey; [|cbn; discriminate]. intros [= <-]. cbn. apply (Ic _ _ Ey). }
  destruct (@add_arcs_ok L l1) as [E3|(l3 & E3 & S3 & P3 & Gt3)]; [exact S1|exact P1|apply left_srt; exact Po1|apply left_pos; exact Po2|intros q x y Hx Hy; split; [apply (I1 _ _ Hx)|apply (IL _ _ Hy)]|rewrite E3; left; reflexivity|]. rewrite E3. cbn [bind].
  right. set (x := mkBT l2 l3 (bt_player (tr_of b id)) false false).
  (* the arcs of the new transition *)
  assert (Hui : bt_inhib (tr_of b u) = false) by (apply (ri_prod R); exact Hu).
  assert (W2 : forall q, wt l2 q = wt (bt_pre (tr_of b u)) q) by (intros q; unfold wt; rewrite Gt2; destruct (get_arc (bt_pre (tr_of b u)) q); reflexivity).
  assert (H2 : forall q, ih l2 q = ih (bt_pre (tr_of b u)) q) by (intros q; unfold ih; rewrite Gt2; destruct (get_arc (bt_pre (tr_of b u)) q); reflexivity).
  assert (W3 : forall q, wt l3 q = (wt (bt_post (tr_of b0 c)) q + wt L q)%N).
  { intros q. unfold wt. rewrite Gt3, Gt1. destruct (get_arc L q) as [y|] eqn:Ey; [pose proof (IL _ _ Ey) as Iy|]; destruct (get_arc (bt_post (tr_of b0 c)) q) as [z|] eqn:Ez; cbn; rewrite ?Iy, ?(Ic _ _ Ez); try reflexivity; lia. }
  assert (WL : forall q, wt L q = if Nat.eqb q p then (wt (bt_post (tr_of b u)) p - con_w c)%N else wt (bt_post (tr_of b u)) q).
  { intros q. unfold wt. rewrite GL. destruct (Nat.eqb_spec q p) as [->|_]; [|reflexivity]. destruct (get_arc (bt_post (tr_of b u)) p) as [y|] eqn:Ey; [|reflexivity]. rewrite (Io _ _ Ey). destruct (N.ltb_spec (con_w c) (arc_weight y)); cbn; [rewrite ?(Io _ _ Ey); reflexivity|lia]. }
  assert (Zc : wt (bt_post (tr_of b0 c)) p = 0%N) by (apply wt_absent; [exact Ps1|apply (rc_out (Hcs c Hc))]).
  assert (Aeq : aeq (fused p (con_w c) (atr_of (tr_of b u)) (atr_of (tr_of b0 c))) (atr_of x)).
  { split; [|split]; intros q; cbn [fused atr_of a_in a_out a_inh x bt_pre bt_post]; [rewrite W2; reflexivity| |rewrite H2; reflexivity].
    rewrite W3, WL. destruct (Nat.eqb_spec q p) as [->|_]; [rewrite Zc; reflexivity|lia]. }
  assert (Pl1 : forall q, pl_of b1 q = pl_of b q) by (intros q; unfold pl_of; rewrite Pl; reflexivity).
  assert (Ft : fits b1 x).
  { constructor; cbn [x bt_skip bt_pre bt_post bt_inhib]; try assumption; [reflexivity| |].
    - intros y Hy. pose proof (in_get_arc _ y S2 Hy) as Gy. rewrite Gt2 in Gy. destruct (get_arc (bt_pre (tr_of b u)) (arc_place y)) as [z|] eqn:Ez; [|discriminate]. injection Gy as Ey.
      apply get_arc_in in Ez. destruct Ez as (Hz & Pz). destruct (g_pre G u z Hz) as (A1 & A2 & A3). rewrite Pl1. rewrite Pz in A1. split; [exact A1|]. split; [apply P2; exact Hy|].
      intros Iy. rewrite <- Ey in Iy. cbn in Iy. rewrite (no_inh_t u G Hui z Hz) in Iy. discriminate.
    - intros y Hy. pose proof (in_get_arc _ y S3 Hy) as Gy. rewrite Gt3 in Gy. rewrite Pl1. destruct (get_arc L (arc_place y)) as [z|] eqn:Ez.
      + injection Gy as Ey. split; [|split; [apply P3; exact Hy|rewrite <- Ey; cbn; apply (IL _ _ Ez)]].
        assert (Hin : In (arc_place y) (map arc_place (bt_post (tr_of b u)))). { apply (left_in p (con_w c)). fold L. apply get_arc_in in Ez. destruct Ez as (Hz & <-). apply in_map. exact Hz. }
        apply in_map_iff in Hin. destruct Hin as (z' & <- & Hz'). apply (g_post G u z' Hz').
      + split; [|split; [apply P3; exact Hy|apply (I1 _ _ Gy)]]. rewrite Gt1 in Gy. destruct (get_arc (bt_post (tr_of b0 c)) (arc_place y)) as [z|] eqn:Ez'; [|discriminate].
        apply get_arc_in in Ez'. destruct Ez' as (Hz & <-). apply (Ps3 z Hz). }
  destruct (@link_ok b1 id x G1 Hid) as (G' & F' & In' & Fl' & T' & C'); [rewrite T1; exact Ep|rewrite T1; exact Eo|exact Ft|]. set (b' := link b1 id x) in *.
  assert (Fl : same_flags b b') by (intros q; destruct (Fl' q) as (A & B); rewrite A, B, Pl1; split; reflexivity).
  assert (Tv : forall v, v <> id -> tr_of b' v = tr_of b v) by (intros v Hv; rewrite T'; destruct (Nat.eqb_spec v id); [contradiction|apply T1]).
  assert (Ti : tr_of b' id = x) by (rewrite T', Nat.eqb_refl; reflexivity).
  assert (Lv : forall v, v <> id -> live b' v = live b v) by (intros v Hv; unfold live; rewrite (f_nt F'), (Tv v Hv); pose proof (L1 v Hv) as X; unfold live in X; rewrite T1 in X; exact X).
  assert (Li : live b' id = true) by (apply live_spec; rewrite (f_nt F'), Ti; split; [exact Hid|reflexivity]).
  assert (Nl : forall v, live b v = true -> v <> id) by (intros v Hv ->; congruence).
  assert (Np : ~ In p (map arc_place (bt_pre x))).
  { intros Hin. assert (Hu' : In u (bp_cons (pl_of b p))).
    { apply (g_cons G). apply in_map_iff in Hin. destruct Hin as (y & Ey & Hy). pose proof (in_get_arc _ y S2 Hy) as Gy. rewrite Gt2, Ey in Gy. destruct (get_arc (bt_pre (tr_of b u)) p) as [z|] eqn:Ez; [|discriminate]. apply get_arc_in in Ez. destruct Ez as (Hz & Pz). rewrite <- Pz. apply in_map. exact Hz. }
    rewrite (ri_cons R) in Hu'. apply (rc_out (Hcs u Hu')). rewrite <- (ri_con R u Hu'). apply (g_prod G). exact Hu. }
  assert (Wi : wt (bt_post (tr_of b' id)) p = (wt (bt_post (tr_of b u)) p - con_w c)%N) by (rewrite Ti; cbn [x bt_post]; rewrite W3, WL, Zc, Nat.eqb_refl; reflexivity).
  assert (Wc : (0 < con_w c)%N) by (rewrite <- (con_weight c Hc Epre); exact Wa).
  set (lf := existsb (fun a0 => Nat.eqb (arc_place a0) p && (con_w c <? arc_weight a0)%N) (bt_post (tr_of b u))).
  assert (Hlf : lf = true <-> (con_w c < wt (bt_post (tr_of b u)) p)%N).
  { unfold lf. rewrite existsb_exists. split.
    - intros (y & Hy & Ey). apply andb_true_iff in Ey. destruct Ey as (Ey & Lt). apply Nat.eqb_eq in Ey. apply N.ltb_lt in Lt. rewrite <- Ey, (@in_wt _ y Po1 Hy); [exact Lt|]. apply (g_post G u y Hy).
    - intros Lt. destruct (@wt_in (bt_post (tr_of b u)) p Po1) as (y & Hy & Ey & _ & Wy); [lia|]. exists y. split; [exact Hy|]. rewrite Ey, Nat.eqb_refl. apply N.ltb_lt. lia. }
  exists b', sk1, (if lf then [id] else []). split; [destruct lf; reflexivity|].
  assert (Prv : forall v, In v (bp_prod (pl_of b' p)) <-> (v <> id /\ In v (bp_prod (pl_of b p))) \/ (v = id /\ lf = true)).
  { intros v. rewrite (prod_wt v G'), (prod_wt v G). destruct (Nat.eq_dec v id) as [->|Hv]; [rewrite Wi, Hlf|rewrite (Tv v Hv)]; [|tauto]. split; [intros; right; split; [reflexivity|lia]|intros [(A & _)|(_ & A)]; [contradiction|lia]]. }
  constructor.
  - constructor.
    + exact G'.
    + split; [apply (proj1 Fr1)|]. intros t Ht. destruct (proj2 Fr1 t Ht) as (A & B). rewrite (f_nt F'). split; [exact A|]. rewrite (Tv t); [rewrite T1 in B; exact B|]. intros ->. contradiction.
    + eapply same_flags_trans; [apply (ri_fl R)|exact Fl].
    + rewrite (C' p Np), Pl1. apply (ri_cons R).
    + intros v Hv. rewrite Tv; [apply (ri_con R); exact Hv|]. apply Nl. eapply con_in; eauto.
    + intros v Hv. apply Prv in Hv. destruct Hv as [(A & B)|(-> & _)]; [rewrite (Tv v A); apply (ri_prod R); exact B|rewrite Ti; reflexivity].
  - rewrite In', In1. reflexivity.
  - intros v Hv. rewrite (Lv v (Nl v Hv)), (Tv v (Nl v Hv)). split; [exact Hv|reflexivity].
  - intros v [<-|[]]. exists id. split; [exact Lid|]. split; [exact Li|]. rewrite Ti. exact Aeq.
  - intros j Hj. destruct (Nat.eq_dec j id) as [->|Hne]; [right; exists c; split; [left; reflexivity|rewrite Ti; exact Aeq]|left; rewrite <- (Lv j Hne); exact Hj].
  - destruct lf; repeat constructor. intros [].
  - destruct lf; cbn; lia.
  - intros j Hj. destruct lf eqn:Elf; [|destruct Hj]. destruct Hj as [<-|[]]. split; [exact Lid|]. split; [apply Prv; right; split; reflexivity|]. rewrite Wi. apply proj1 in Hlf. specialize (Hlf eq_refl). lia.
  - intros v Hv. apply Prv in Hv. destruct Hv as [(_ & A)|(-> & A)]; [left; exact A|right; rewrite A; left; reflexivity].
Qed.

Lemma con_not_prod : forall b sk u, rinv b sk -> In u (bp_prod (pl_of b p)) -> ~ In u C.
Proof. intros b sk u R Hu Hc. apply (rc_out (Hcs u Hc)). rewrite <- (ri_con R u Hc). apply (g_prod (ri_good R)). exact Hu. Qed.
Lemma prod_live : forall b sk u, rinv b sk -> In u (bp_prod (pl_of b p)) -> live b u = true.
Proof. intros b sk u R Hu. destruct (prod_arc p u (ri_good R) Hu) as (a & _ & Ha & _). apply (@arc_live b u a (ri_good R)). right. exact Ha. Qed.
Lemma r_fuses_ok : forall cs b sk todo u, rinv b sk -> incl cs C -> In u (bp_prod (pl_of b p)) -> (forall c, In c C -> (con_w c <= wt (bt_post (tr_of b u)) p)%N) ->
  fold_res (r_fuse p (tr_of b u)) cs (b, sk, todo) = Throw \/
  exists b' sk' new, fold_res (r_fuse p (tr_of b u)) cs (b, sk, todo) = Ok (b', sk', new ++ todo) /\ fused_to cs (tr_of b u) b b' sk' new.
Proof.
  induction cs as [|c cs IH]; intros b sk todo u R Hi Hu Hw.
  - right. exists b, sk, []. split; [reflexivity|]. constructor; try reflexivity; try exact R; try (intros; contradiction); auto. constructor.
  - cbn [fold_res]. assert (Hc : In c C) by (apply Hi; left; reflexivity).
    destruct (@r_fuse_ok b sk todo u c R Hc Hu (Hw c Hc)) as [E|(b1 & sk1 & new1 & E & D1)]; [rewrite E; left; reflexivity|]. rewrite E. cbn [bind].
    destruct (fd_keep D1 u (prod_live u R Hu)) as (Lu & Tu). pose proof (fd_inv D1) as R1.
    assert (Hu1 : In u (bp_prod (pl_of b1 p))) by (apply (g_prod (ri_good R1)); rewrite Tu; apply (g_prod (ri_good R)); exact Hu).
    rewrite <- Tu. destruct (IH b1 sk1 (new1 ++ todo) u R1) as [E2|(b2 & sk2 & new2 & E2 & D2)]; [intros x Hx; apply Hi; right; exact Hx|exact Hu1|rewrite Tu; exact Hw|left; exact E2|].
    right. exists b2, sk2, (new2 ++ new1). rewrite <- app_assoc. split; [exact E2|]. rewrite Tu in *.
    assert (NL : forall v, live b1 v = false -> live b v = false) by (intros v Hv; destruct (live b v) eqn:Ev; [destruct (fd_keep D1 v Ev); congruence|reflexivity]).
    assert (P1 : forall v, In v (bp_prod (pl_of b1 p)) -> In v (bp_prod (pl_of b2 p)) /\ tr_of b2 v = tr_of b1 v).
    { intros v Hv. destruct (fd_keep D2 v (prod_live v R1 Hv)) as (_ & Tv). split; [|exact Tv]. apply (g_prod (ri_good (fd_inv D2))). rewrite Tv. apply (g_prod (ri_good R1)). exact Hv. }
    constructor.
    + apply (fd_inv D2).
    + rewrite (fd_init D2), (fd_init D1). reflexivity.
    + intros v Hv. destruct (fd_keep D1 v Hv) as (A1 & A2). destruct (fd_keep D2 v A1) as (B1 & B2). split; [exact B1|congruence].
    + intros x [<-|Hx].
      * destruct (fd_new D1 c (or_introl eq_refl)) as (j & A1 & A2 & A3). destruct (fd_keep D2 j A2) as (B1 & B2). exists j. split; [exact A1|]. split; [exact B1|]. rewrite B2. exact A3.
      * destruct (fd_new D2 x Hx) as (j & A1 & A2 & A3). exists j. split; [apply NL; exact A1|]. split; assumption.
    + intros j Hj. destruct (fd_all D2 j Hj) as [H1|(x & Hx & A)]; [|right; exists x; split; [right; exact Hx|exact A]].
      destruct (fd_keep D2 j H1) as (_ & Tj). destruct (fd_all D1 j H1) as [H2|(x & Hx & A)]; [left; exact H2|]. right. exists x. split; [destruct Hx as [<-|[]]; left; reflexivity|rewrite Tj; exact A].
    + assert (Dj : forall v, In v new2 -> ~ In v new1). { intros v H2 H1. destruct (fd_todo D2 v H2) as (A & _). destruct (fd_todo D1 v H1) as (_ & B & _). rewrite (prod_live v R1 B) in A. discriminate. }
      apply nodup_app; [apply (fd_nodup D2)|apply (fd_nodup D1)|exact Dj].
    + rewrite app_length. cbn [length]. pose proof (fd_len D1). pose proof (fd_len D2). cbn [length] in *. lia.
    + intros j Hj. apply in_app_iff in Hj. destruct Hj as [Hj|Hj].
      * destruct (fd_todo D2 j Hj) as (A & B & W). split; [apply NL; exact A|]. split; assumption.
      * destruct (fd_todo D1 j Hj) as (A & B & W). destruct (P1 j B) as (B' & Tj). split; [exact A|]. split; [exact B'|]. rewrite Tj. exact W.
    + intros v Hv. destruct (fd_prod D2 v Hv) as [H|H]; [|right; apply in_app_iff; left; exact H]. destruct (fd_prod D1 v H) as [H'|H']; [left; exact H'|right; apply in_app_iff; right; exact H'].
Qed.

(** ** The loop over the producers *)
Fixpoint r_weigh (b : builder) (l : list nat) : nat := match l with [] => 0 | u :: l' => Nat.pow (S (length C)) (N.to_nat (wt (bt_post (tr_of b u)) p)) + r_weigh b l' end.
Lemma r_weigh_app : forall b l1 l2, r_weigh b (l1 ++ l2) = r_weigh b l1 + r_weigh b l2.
Proof. induction l1 as [|u l1 IH]; intros l2; cbn [app r_weigh]; [reflexivity|]. rewrite IH. lia. Qed.
Lemma r_weigh_ext : forall b b' l, (forall u, In u l -> tr_of b' u = tr_of b u) -> r_weigh b' l = r_weigh b l.
Proof. intros b b'. induction l as [|u l IH]; intros H; cbn [r_weigh]; [reflexivity|]. rewrite (H u (or_introl eq_refl)), IH; [reflexivity|]. intros v Hv. apply H. right. exact Hv. Qed.
Lemma r_weigh_small : forall b n l, (forall u, In u l -> (N.to_nat (wt (bt_post (tr_of b u)) p) <= n)) -> r_weigh b l <= length l * Nat.pow (S (length C)) n.
Proof.
  intros b n. induction l as [|u l IH]; intros H; cbn [r_weigh length]; [lia|]. specialize (IH (fun v Hv => H v (or_intror Hv))). specialize (H u (or_introl eq_refl)).
  assert (X : Nat.pow (S (length C)) (N.to_nat (wt (bt_post (tr_of b u)) p)) <= Nat.pow (S (length C)) n) by (apply Nat.pow_le_mono_r; [lia|exact H]). cbn [Nat.mul]. lia.
Qed.

Lemma r_step_ok : forall b sk u b1 sk1 new, rinv b sk -> C <> [] -> In u (bp_prod (pl_of b p)) -> (forall c, In c C -> (con_w c <= wt (bt_post (tr_of b u)) p)%N) ->
  fused_to C (tr_of b u) b b1 sk1 new ->
  exists b2, skip_push (b1, sk1) u = Ok (b2, u :: sk1) /\ rinv b2 (u :: sk1) /\ b_init b2 = b_init b /\ same inq (anet_of b) (anet_of b2) /\
    (forall v, v <> u -> tr_of b2 v = tr_of b1 v) /\ (forall v, In v (bp_prod (pl_of b2 p)) <-> v <> u /\ In v (bp_prod (pl_of b1 p))).
Proof.
  intros b sk u b1 sk1 new R Cne Hu Hw D. pose proof (fd_inv D) as R1. pose proof (prod_live u R Hu) as Lu. destruct (fd_keep D u Lu) as (Lu1 & Tu1).
  pose proof (proj1 (live_spec b1 u) Lu1) as (Ru & Su). destruct (skip_transition_ok (ri_good R1) Ru Su) as (b2 & E & G2 & F2 & I2 & Fl2 & T2).
  exists b2. unfold skip_push. rewrite E. cbn [bind]. split; [reflexivity|].
  assert (Tv : forall v, v <> u -> tr_of b2 v = tr_of b1 v) by (intros v Hv; rewrite T2; destruct (Nat.eqb_spec v u); [contradiction|reflexivity]).
  assert (Tg : tr_of b2 u = gone (tr_of b1 u)) by (rewrite T2, Nat.eqb_refl; reflexivity).
  assert (Lv : forall v, live b2 v = if Nat.eqb v u then false else live b1 v).
  { intros v. unfold live. rewrite (f_nt F2). destruct (Nat.eqb_spec v u) as [->|Hv]; [rewrite Tg; apply andb_false_r|rewrite (Tv v Hv); reflexivity]. }
  assert (Nu : ~ In u C) by (exact (@con_not_prod b sk u R Hu)).
  assert (P2 : forall v, In v (bp_prod (pl_of b2 p)) <-> v <> u /\ In v (bp_prod (pl_of b1 p))).
  { intros v. rewrite (g_prod G2), (g_prod (ri_good R1)). destruct (Nat.eq_dec v u) as [->|Hv]; [rewrite Tg; cbn; tauto|rewrite (Tv v Hv); tauto]. }
  assert (R2 : rinv b2 (u :: sk1)).
  { constructor.
    - exact G2.
    - destruct (ri_free R1) as (Nd & Fr). split.
      + constructor; [|exact Nd]. intros H. destruct (Fr u H). congruence.
      + intros t [<-|Ht]; rewrite (f_nt F2); [rewrite Tg; split; [exact Ru|reflexivity]|]. destruct (Fr t Ht) as (A & B). split; [exact A|]. destruct (Nat.eq_dec t u) as [->|Hne]; [rewrite Tg; reflexivity|rewrite (Tv t Hne); exact B].
    - eapply same_flags_trans; [apply (ri_fl R1)|exact Fl2].
    - apply sorted_ext; [apply (g_scons G2)|rewrite <- (ri_cons R1); apply (g_scons (ri_good R1))|]. intros v. rewrite <- (ri_cons R1), (g_cons G2), (g_cons (ri_good R1)).
      destruct (Nat.eq_dec v u) as [->|Hv]; [|rewrite (Tv v Hv); tauto]. rewrite Tg. cbn. split; [intros []|]. intros H. apply Nu. rewrite <- (ri_cons R1). apply (g_cons (ri_good R1)). exact H.
    - intros c Hc. rewrite Tv; [apply (ri_con R1); exact Hc|]. intros ->. contradiction.
    - intros v Hv. apply P2 in Hv. destruct Hv as (Hne & Hv). rewrite (Tv v Hne). apply (ri_prod R1). exact Hv. }
  split; [exact R2|]. split; [rewrite I2, (fd_init D); reflexivity|]. split; [|split; [exact Tv|exact P2]].
  apply fuse_same with (p0 := p) (iu := u) (tu := atr_of (tr_of b u)) (C := C) (w := con_w).
  - intros q. cbn. unfold init_at. rewrite I2, (fd_init D). reflexivity.
  - exact Hq.
  - intros i t Hi. eapply no_inh_p; [apply (ri_good R)| |exact Hi]. rewrite (proj2 (ri_fl R p)). exact Hih.
  - exact Cne.
  - intros c Hc. exists (atr_of (tr_of b c)). split; [apply tr_live; eapply con_in; eauto|]. destruct (rc_pre (Hcs c Hc)) as (a & Ea & Pa & Ia & Wa). rewrite (ri_con R c Hc).
    split; [rewrite <- (con_weight c Hc Ea); exact Wa|].
    assert (Sg : srt [a]) by (split; [intros y []|exact I]).
    split; [|split; [|split; [|]]].
    + intros q. cbn [atr_of a_in]. unfold wt. rewrite Ea, get_cons, Pa by exact Sg. destruct (Nat.eqb q p); [rewrite Ia; apply (con_weight c Hc Ea)|reflexivity].
    + intros q. cbn [atr_of a_inh]. unfold ih. rewrite Ea, get_cons by exact Sg. destruct (Nat.eqb q (arc_place a)); [rewrite Ia|]; reflexivity.
    + cbn [atr_of a_out]. apply wt_absent; [rewrite <- (ri_con R c Hc); apply (g_spost (ri_good R))|apply (rc_out (Hcs c Hc))].
    + intros q Hne. cbn [atr_of a_out] in Hne. assert (Sr : srt (bt_post (tr_of b0 c))) by (rewrite <- (ri_con R c Hc); apply (g_spost (ri_good R))). destruct (@wt_in _ q Sr Hne) as (o & Ho & Po & _). rewrite <- Po.
      destruct (rc_post (Hcs c Hc) o Ho) as (A & B). split; [exact A|]. intros j t Hj. eapply no_inh_p; [apply (ri_good R)| |exact Hj]. rewrite (proj2 (ri_fl R _)). exact B.
  - intros i t Hi Nc. eapply cons_zero; [apply (ri_good R)|exact Hi|]. rewrite (ri_cons R). exact Nc.
  - apply tr_live. exact Lu.
  - exact Nu.
  - exact Hw.
  - intros i t Hi Ht. apply live_tr in Ht. destruct Ht as (-> & Li). destruct (fd_keep D i Li) as (L1 & T1). exists (atr_of (tr_of b2 i)). split; [apply tr_live; rewrite Lv; destruct (Nat.eqb_spec i u); [contradiction|exact L1]|].
    rewrite (Tv i Hi), T1. apply aeq_refl.
  - intros c t Hc Ht. apply live_tr in Ht. destruct Ht as (-> & Lc). destruct (fd_new D c Hc) as (j & A1 & A2 & A3). assert (j <> u) by (intros ->; congruence).
    exists j, (atr_of (tr_of b2 j)). split; [apply tr_live; rewrite Lv; destruct (Nat.eqb_spec j u); [contradiction|exact A2]|]. rewrite (Tv j), (ri_con R c Hc) by assumption. exact A3.
  - intros j x Hj. apply live_tr in Hj. destruct Hj as (-> & Lj). rewrite Lv in Lj. destruct (Nat.eqb_spec j u) as [|Hne]; [discriminate|]. rewrite (Tv j Hne).
    destruct (live b j) eqn:Eb.
    + left. exists (atr_of (tr_of b j)). split; [exact Hne|]. split; [apply tr_live; exact Eb|]. destruct (fd_keep D j Eb) as (_ & ->). apply aeq_refl.
    + right. destruct (fd_all D j Lj) as [H|(c & Hc & A)]; [congruence|]. exists c, (atr_of (tr_of b c)). split; [exact Hc|]. split; [apply tr_live; eapply con_in; eauto|]. rewrite (ri_con R c Hc). exact A.
Qed.

Lemma r_loop_ok : forall mx, (forall c, In c C -> (con_w c <= mx)%N) -> C <> [] -> forall fuel b sk todo all, rinv b sk -> NoDup todo ->
  (forall u, In u todo -> In u (bp_prod (pl_of b p))) -> (all = true -> forall u, In u (bp_prod (pl_of b p)) -> In u todo) -> r_weigh b todo < fuel ->
  r_loop fuel p mx b sk todo all = Throw \/
  exists b' sk' all', r_loop fuel p mx b sk todo all = Ok (b', sk', all') /\ rinv b' sk' /\ b_init b' = b_init b /\ same inq (anet_of b) (anet_of b') /\
    (all' = true -> bp_prod (pl_of b' p) = []).
Proof.
  intros mx Hmx Cne. induction fuel as [|fuel IH]; intros b sk todo all R Nd Ht Ha Hf; [lia|]. cbn [r_loop]. destruct todo as [|u todo].
  - right. exists b, sk, all. split; [reflexivity|]. split; [exact R|]. split; [reflexivity|]. split; [apply same_refl|]. intros E. specialize (Ha E). destruct (bp_prod (pl_of b p)) as [|x l]; [reflexivity|]. destruct (Ha x (or_introl eq_refl)).
  - pose proof (Ht u (or_introl eq_refl)) as Hu. destruct (prod_arc p u (ri_good R) Hu) as (a & Ea & Hin & Pa). unfold out_arc in Ea. rewrite Ea. cbn [some bind].
    assert (Wa : arc_weight a = wt (bt_post (tr_of b u)) p) by (unfold wt; rewrite Ea; destruct (g_post (ri_good R) u a Hin) as (_ & _ & ->); reflexivity).
    inversion Nd as [|x y N1 N2]; subst x y. cbn [r_weigh] in Hf.
    assert (Pp : 0 < Nat.pow (S (length C)) (N.to_nat (wt (bt_post (tr_of b u)) p))) by (apply Nat.neq_0_lt_0, Nat.pow_nonzero; lia).
    destruct (N.ltb_spec (arc_weight a) mx) as [L|L].
    + apply IH; [exact R|exact N2|intros v Hv; apply Ht; right; exact Hv|discriminate|lia].
    + assert (Hw : forall c, In c C -> (con_w c <= wt (bt_post (tr_of b u)) p)%N) by (intros c Hc; specialize (Hmx c Hc); lia).
      rewrite (ri_cons R). destruct (@r_fuses_ok C b sk todo u R (fun x H => H) Hu Hw) as [E|(b1 & sk1 & new & E & D)]; [rewrite E; left; reflexivity|]. rewrite E. cbn [bind].
      destruct (r_step_ok u R Cne Hu Hw D) as (b2 & E2 & R2 & I2 & S2 & T2 & P2). rewrite E2. cbn [bind].
      pose proof (fd_inv D) as R1. pose proof (prod_live u R Hu) as Lu.
      assert (Hold : forall v, In v todo -> v <> u /\ tr_of b1 v = tr_of b v /\ In v (bp_prod (pl_of b1 p)) /\ live b v = true).
      { intros v Hv. pose proof (Ht v (or_intror Hv)) as Hp. pose proof (prod_live v R Hp) as Lv. destruct (fd_keep D v Lv) as (_ & Tv). split; [intros ->; contradiction|]. split; [exact Tv|]. split; [|exact Lv].
        apply (g_prod (ri_good R1)). rewrite Tv. apply (g_prod (ri_good R)). exact Hp. }
      assert (Hnu : forall v, In v new -> v <> u) by (intros v Hv ->; destruct (fd_todo D u Hv); congruence).
      destruct (IH b2 (u :: sk1) (new ++ todo) all) as [E3|(b3 & sk3 & all3 & E3 & R3 & I3 & S3 & P3)].
      * exact R2.
      * assert (Dj : forall v, In v new -> ~ In v todo). { intros v H1 H2. destruct (fd_todo D v H1) as (A & _). destruct (Hold v H2) as (_ & _ & _ & B). congruence. }
        apply nodup_app; [apply (fd_nodup D)|exact N2|exact Dj].
      * intros v Hv. apply P2. apply in_app_iff in Hv. destruct Hv as [Hv|Hv]; [split; [apply Hnu; exact Hv|apply (fd_todo D v Hv)]|destruct (Hold v Hv) as (A & _ & B & _); split; assumption].
      * intros Eall v Hv. apply P2 in Hv. destruct Hv as (Hne & Hv). apply in_app_iff. destruct (fd_prod D v Hv) as [H|H]; [right|left; exact H]. destruct (Ha Eall v H) as [<-|H']; [contradiction|exact H'].
      * rewrite r_weigh_app. rewrite (@r_weigh_ext b b2 todo) by (intros v Hv; destruct (Hold v Hv) as (A & B & _); rewrite (T2 v A); exact B).
        destruct (N.to_nat (wt (bt_post (tr_of b u)) p)) as [|n] eqn:En.
        { apply (@prod_wt b u (ri_good R)) in Hu. lia. }
        assert (X : r_weigh b2 new <= length new * Nat.pow (S (length C)) n).
        { apply r_weigh_small. intros v Hv. rewrite (T2 v (Hnu v Hv)). destruct (fd_todo D v Hv) as (_ & _ & W). lia. }
        pose proof (fd_len D) as Ln. assert (length new * Nat.pow (S (length C)) n <= length C * Nat.pow (S (length C)) n) by (apply Nat.mul_le_mono_r; exact Ln).
        assert (Y : 0 < Nat.pow (S (length C)) n) by (apply Nat.neq_0_lt_0, Nat.pow_nonzero; lia).
        change (Nat.pow (S (length C)) (S n)) with (S (length C) * Nat.pow (S (length C)) n) in Hf. cbn [Nat.mul] in Hf. lia.
      * left. exact E3.
      * right. exists b3, sk3, all3. split; [exact E3|]. split; [exact R3|]. split; [congruence|]. split; [eapply same_trans; eauto|exact P3].
Qed.
End R.

(** ** The end of the rule: the consumers are dead *)
Lemma skip_consumers : forall inq p l b sk, good b -> free b sk -> NoDup l -> (forall c, In c l -> In c (bp_cons (pl_of b p))) -> bp_inhib (pl_of b p) = false ->
  bp_prod (pl_of b p) = [] -> init_at b p = 0%N ->
  exists b' sk', fold_res skip_push l (b, sk) = Ok (b', sk') /\ good b' /\ free b' sk' /\ same_views inq b b' /\ same_flags b b' /\
    (forall v, In v (bp_cons (pl_of b' p)) -> In v (bp_cons (pl_of b p)) /\ ~ In v l) /\ bp_prod (pl_of b' p) = [].
Proof.
  intros inq p. induction l as [|c l IH]; intros b sk G Fr Nd Hl Hi Hp H0.
  - exists b, sk. split; [reflexivity|]. split; [exact G|]. split; [exact Fr|]. split; [apply same_views_refl|]. split; [apply same_flags_refl|]. split; [|exact Hp]. intros v Hv. split; [exact Hv|intros []].
  - cbn [fold_res]. unfold skip_push at 1. pose proof (Hl c (or_introl eq_refl)) as Hc. destruct (cons_arc p c G Hc) as (a & Ea & Ha & Pa).
    assert (Lc : live b c = true) by (apply (@arc_live b c a G); left; exact Ha). destruct (proj1 (live_spec b c) Lc) as (Rc & Sc).
    destruct (skip_transition_ok G Rc Sc) as (b1 & E & G1 & F1 & I1 & Fl1 & T1). rewrite E. cbn [bind].
    assert (Tv : forall v, v <> c -> tr_of b1 v = tr_of b v) by (intros v Hv; rewrite T1; destruct (Nat.eqb_spec v c); [contradiction|reflexivity]).
    assert (Tg : tr_of b1 c = gone (tr_of b c)) by (rewrite T1, Nat.eqb_refl; reflexivity).
    assert (Zero : forall m, areach (anet_of b) m -> m p = 0%N).
    { apply areach_ind; [intros m E0; rewrite E0; exact H0|]. intros m i t m1 _ Z Ht _ X. rewrite X. unfold afire. rewrite Z. apply live_tr in Ht. destruct Ht as (-> & _).
      cbn [atr_of a_out]. rewrite wt_absent; [lia|apply (g_spost G)|]. intros Hin. apply (g_prod G) in Hin. rewrite Hp in Hin. exact Hin. }
    assert (V : same_views inq b b1).
    { apply same_views_intro; [exact G|exact G1|]. apply drop_dead.
      - intros q. cbn. unfold init_at. rewrite I1. reflexivity.
      - intros i t Ht. rewrite (anet_skip_t _ F1 T1) in Ht. destruct (Nat.eqb i c); [discriminate|exact Ht].
      - intros m i t Hm Ht En. rewrite (anet_skip_t _ F1 T1). destruct (Nat.eqb_spec i c) as [->|_]; [|exact Ht]. exfalso. apply live_tr in Ht. destruct Ht as (-> & _).
        pose proof (proj1 (En p)) as X. rewrite (Zero m Hm) in X. cbn [atr_of a_in] in X. destruct (g_pre G c a Ha) as (_ & Wa & Ia). rewrite <- Pa, (@in_wt _ a (g_spre G c) Ha) in X; [lia|].
        destruct (arc_inhib a); [|reflexivity]. destruct (Ia eq_refl) as (_ & Y). rewrite Pa in Y. congruence. }
    inversion Nd as [|x y N1 N2]; subst x y.
    destruct (IH b1 (c :: sk)) as (b' & sk' & E' & G' & Fr' & V' & Fl' & C' & P').
    + exact G1.
    + destruct Fr as (Fn & Ff). split.
      * constructor; [|exact Fn]. intros H. destruct (Ff c H). congruence.
      * intros t [<-|Ht]; rewrite (f_nt F1); [rewrite Tg; split; [exact Rc|reflexivity]|]. destruct (Ff t Ht) as (A & B). split; [exact A|]. destruct (Nat.eq_dec t c) as [->|Hne]; [rewrite Tg; reflexivity|rewrite (Tv t Hne); exact B].
    + exact N2.
    + intros v Hv. apply (g_cons G1). rewrite Tv; [apply (g_cons G); apply Hl; right; exact Hv|]. intros ->. contradiction.
    + rewrite (proj2 (Fl1 p)). exact Hi.
    + destruct (bp_prod (pl_of b1 p)) as [|v q] eqn:Eq; [reflexivity|]. exfalso. assert (Hv : In v (bp_prod (pl_of b1 p))) by (rewrite Eq; left; reflexivity). apply (g_prod G1) in Hv.
      destruct (Nat.eq_dec v c) as [->|Hne]; [rewrite Tg in Hv; destruct Hv|]. rewrite (Tv v Hne) in Hv. apply (g_prod G) in Hv. rewrite Hp in Hv. exact Hv.
    + unfold init_at. rewrite I1. exact H0.
    + exists b', sk'. split; [exact E'|]. split; [exact G'|]. split; [exact Fr'|]. split; [eapply same_views_trans; eauto|]. split; [eapply same_flags_trans; eauto|]. split; [|exact P'].
      intros v Hv. destruct (C' v Hv) as (A & B). apply (g_cons G1) in A. destruct (Nat.eq_dec v c) as [->|Hne]; [rewrite Tg in A; destruct A|]. rewrite (Tv v Hne) in A. split; [apply (g_cons G); exact A|]. intros [H|H]; [congruence|contradiction].
Qed.
Lemma skip_isolated : forall inq p b, good b -> bp_skip (pl_of b p) = false -> inq p = false -> bp_cons (pl_of b p) = [] ->
  exists b', skip_place b p = Ok b' /\ good b' /\ same_views inq b b' /\ forall v, bt_skip (tr_of b' v) = bt_skip (tr_of b v) /\ length (b_trans b') = length (b_trans b).
Proof.
  intros inq p b G Hs Hq Hc. destruct (skip_place_ok p G Hs) as (b' & E & G' & F & I & _ & _ & _ & T). pose proof (@skip_place_drop inq b p G Hs Hq) as S. rewrite E in S. destruct S as (_ & V).
  - intros m t x _ Ht En q. apply live_tr in Ht. destruct Ht as (-> & _). specialize (En q). cbn [without a_in a_inh] in En. destruct (Nat.eqb_spec q p) as [Eqp|_]; [|exact En]. rewrite Eqp in *.
    assert (Z : get_arc (bt_pre (tr_of b t)) p = None) by (apply get_arc_none; [apply (g_spre G)|]; intros Hin; apply (g_cons G) in Hin; rewrite Hc in Hin; exact Hin).
    cbn [atr_of a_in a_inh]. unfold wt, ih. rewrite Z. split; [lia|discriminate].
  - exists b'. split; [exact E|]. split; [exact G'|]. split; [exact V|]. intros v. rewrite T, (f_nt F). split; reflexivity.
Qed.

(** ** The checks *)
Lemma disjoint_ok : forall l1 l2, sorted l1 -> sorted l2 -> disjoint l1 l2 = true -> forall x, In x l1 -> ~ In x l2.
Proof.
  induction l1 as [|x l1 IH1]; [intros l2 _ _ _ y []|]. induction l2 as [|y l2 IH2]; intros (A1 & B1) S2 H z Hz; [intros []|]. destruct S2 as (A2 & B2).
  cbn [disjoint] in H. destruct (Nat.ltb_spec x y) as [L|L].
  - destruct Hz as [<-|Hz]; [|apply (IH1 (y :: l2)); [exact B1|split; assumption|exact H|exact Hz]]. intros [E|Hin]; [lia|]. specialize (A2 _ Hin). lia.
  - destruct (Nat.ltb_spec y x) as [L2|L2]; [|discriminate]. specialize (IH2 (conj A1 B1) B2 H z Hz). intros [E|Hin]; [|contradiction]. subst z. destruct Hz as [E|Hz]; [lia|]. specialize (A1 _ Hz). lia.
Qed.
Lemma r_consumers_ok : forall inq b l mx mx', r_consumers inq b l mx = Some mx' -> (mx <= mx')%N /\
  forall c, In c l -> bt_inhib (tr_of b c) = false /\ (exists a, bt_pre (tr_of b c) = [a] /\ (arc_weight a <= mx')%N) /\
    forall o, In o (bt_post (tr_of b c)) -> inq (arc_place o) = false /\ bp_inhib (pl_of b (arc_place o)) = false.
Proof.
  intros inq b. induction l as [|c l IH]; intros mx mx' H; cbn [r_consumers] in H; [injection H as <-; split; [lia|intros c []]|].
  destruct (bt_inhib (tr_of b c)) eqn:Ei; [discriminate|]. destruct (bt_pre (tr_of b c)) as [|a [|a' pre]] eqn:Ep; try discriminate.
  destruct (existsb _ (bt_post (tr_of b c))) eqn:Ex; [discriminate|]. destruct (IH _ _ H) as (A & B). split; [lia|]. intros v [<-|Hv]; [|apply B; exact Hv].
  split; [exact Ei|]. split; [exists a; split; [exact Ep|lia]|]. intros o Ho. destruct (inq (arc_place o) || bp_inhib (pl_of b (arc_place o))) eqn:Eo.
  - assert (X : existsb (fun o => inq (arc_place o) || bp_inhib (pl_of b (arc_place o))) (bt_post (tr_of b c)) = true) by (apply existsb_exists; exists o; split; assumption). congruence.
  - apply orb_false_iff in Eo. exact Eo.
Qed.

Theorem rule_r_ok : forall inq limit b sk p, good b -> free b sk -> (forall u, In u (bp_prod (pl_of b p)) -> bt_inhib (tr_of b u) = false) ->
  exists n, forall fuel, n <= fuel -> sound_new inq b (rule_r inq fuel limit b sk p).
Proof.
  intros inq limit b sk p G Fr Hi.
  assert (Triv : exists n, forall fuel : nat, n <= fuel -> sound_new inq b (Ok (b, sk))) by (exists 0; intros _ _; cbn; split; [exact G|split; [exact Fr|apply same_views_refl]]).
  unfold rule_r. destruct (bp_skip (pl_of b p)) eqn:Esk; [exact Triv|]. destruct (bp_inhib (pl_of b p)) eqn:Eih; [exact Triv|]. destruct (inq p) eqn:Eq; [exact Triv|]. cbn [orb].
  destruct (bp_prod (pl_of b p)) as [|u0 ps] eqn:Ep; [exact Triv|]. destruct (bp_cons (pl_of b p)) as [|c0 cs] eqn:Ec; [exact Triv|]. rewrite <- Ep, <- Ec in *.
  destruct (Nat.max limit (length sk) <? length (bp_prod (pl_of b p)) * length (bp_cons (pl_of b p))); [exact Triv|].
  destruct (disjoint (bp_prod (pl_of b p)) (bp_cons (pl_of b p))) eqn:Ed; [|exact Triv]. cbn [negb].
  destruct (r_consumers inq b (bp_cons (pl_of b p)) 0) as [mx|] eqn:Er; [|exact Triv].
  destruct (r_consumers_ok _ _ _ _ Er) as (_ & Hc). pose proof (@disjoint_ok _ _ (g_sprod G p) (g_scons G p) Ed) as Dj.
  assert (Hcs : forall c, In c (bp_cons (pl_of b p)) -> r_consumer inq b p c).
  { intros c Hin. destruct (Hc c Hin) as (Ic & (a & Ea & _) & Hpost). constructor; [|intros H; apply (g_prod G) in H; apply (Dj c H Hin)|exact Hpost].
    exists a. split; [exact Ea|]. assert (Ha : In a (bt_pre (tr_of b c))) by (rewrite Ea; left; reflexivity). destruct (g_pre G c a Ha) as (_ & Wa & _). apply (g_cons G) in Hin. rewrite Ea in Hin. destruct Hin as [Hin|[]].
    split; [exact Hin|]. split; [apply (no_inh_t c G Ic a Ha)|exact Wa]. }
  assert (Hmx : forall c, In c (bp_cons (pl_of b p)) -> (con_w b p c <= mx)%N).
  { intros c Hin. destruct (Hc c Hin) as (_ & (a & Ea & La) & _). rewrite <- (con_weight Hcs c Hin Ea). exact La. }
  assert (R0 : rinv b p b sk) by (constructor; try assumption; try reflexivity; apply same_flags_refl).
  exists (S (r_weigh b p b (rev (bp_prod (pl_of b p))))). intros fuel Hf.
  destruct (@r_loop_ok inq b p Hcs Eih Eq mx Hmx ltac:(congruence) fuel b sk (rev (bp_prod (pl_of b p))) true R0) as [E|(b1 & sk1 & all & E & R1 & I1 & S1 & P1)].
  { apply NoDup_rev, sorted_nodup, (g_sprod G). } { intros u Hu. apply in_rev. exact Hu. } { intros _ u Hu. apply in_rev in Hu. exact Hu. } { exact Hf. }
  { rewrite E. exact I. }
  rewrite E. cbn [bind]. pose proof (ri_good R1) as G1. assert (V1 : same_views inq b b1) by (apply same_views_intro; assumption).
  destruct all; cbn [andb]; [|cbn; split; [exact G1|split; [apply (ri_free R1)|exact V1]]].
  destruct (N.eqb_spec (init_at b1 p) 0) as [Z|_]; [|cbn; split; [exact G1|split; [apply (ri_free R1)|exact V1]]].
  destruct (@skip_consumers inq p (bp_cons (pl_of b1 p)) b1 sk1 G1 (ri_free R1)) as (b2 & sk2 & E2 & G2 & Fr2 & V2 & Fl2 & C2 & P2).
  { apply sorted_nodup, (g_scons G1). } { auto. } { rewrite (proj2 (ri_fl R1 p)). exact Eih. } { apply P1. reflexivity. } { exact Z. }
  rewrite E2. cbn [bind].
  destruct (@skip_isolated inq p b2 G2) as (b3 & E3 & G3 & V3 & T3).
  { rewrite (proj1 (Fl2 p)), (proj1 (ri_fl R1 p)). exact Esk. } { exact Eq. }
  { destruct (bp_cons (pl_of b2 p)) as [|v l] eqn:Ev; [reflexivity|]. destruct (C2 v (or_introl eq_refl)). contradiction. }
  rewrite E3. cbn [bind sound_new]. split; [exact G3|]. split.
  - destruct Fr2 as (A & B). split; [exact A|]. intros t Ht. destruct (T3 t) as (-> & ->). apply B. exact Ht.
  - eapply same_views_trans; [exact V1|]. eapply same_views_trans; eauto.
Qed.
