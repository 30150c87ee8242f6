(** The abstract net of a builder behaves like its net (NetSpec). *)
From Verif Require Import Base BaseLemmas NetSpec NetModel BuilderModel RedTheory RedSpec RedModel RedProofs.
Set Implicit Arguments.

Lemma wt_cons : forall a l p, srt (a :: l) -> wt (a :: l) p = if Nat.eqb (arc_place a) p then (if arc_inhib a then 0%N else arc_weight a) else wt l p.
Proof.
  intros a l p (A & B). unfold wt. cbn [get_arc]. destruct (Nat.ltb_spec (arc_place a) p) as [L|L].
  - destruct (Nat.eqb_spec (arc_place a) p); [lia|reflexivity].
  - destruct (Nat.eqb_spec (arc_place a) p) as [E|E]; [reflexivity|]. destruct (get_arc l p) as [x|] eqn:G; [|reflexivity].
    exfalso. apply get_arc_in in G. destruct G as (G & <-). specialize (A _ (in_map arc_place _ _ G)). lia.
Qed.
Lemma wt_absent : forall l p, srt l -> ~ In p (map arc_place l) -> wt l p = 0%N.
Proof. intros l p S' H. unfold wt. rewrite (proj2 (get_arc_none l p S') H). reflexivity. Qed.
Lemma weight_at_wt : forall l p, srt l -> weight_at l p = wt l p.
Proof.
  induction l as [|a l IH]; intros p Hs; [reflexivity|]. rewrite wt_cons by exact Hs. destruct Hs as (A & B). unfold weight_at in *. cbn [filter].
  destruct (Nat.eqb_spec (arc_place a) p) as [E|E]; cbn [andb]; [|apply IH; exact B].
  assert (Z : sumN (map arc_weight (filter (fun a0 => Nat.eqb (arc_place a0) p && negb (arc_inhib a0)) l)) = 0%N).
  { rewrite (IH p B). apply wt_absent; [exact B|]. intros H. specialize (A _ H). lia. }
  destruct (arc_inhib a); cbn [negb map sumN]; rewrite ?Z; [reflexivity|lia].
Qed.
Lemma aen_arcs : forall x f, srt (bt_pre x) -> (aen (atr_of x) f <-> forall a, In a (bt_pre x) -> if arc_inhib a then (f (arc_place a) < arc_weight a)%N else (arc_weight a <= f (arc_place a))%N).
Proof.
  intros x f Hs. unfold aen, atr_of. cbn [a_in a_inh]. split.
  - intros H a Ha. pose proof (in_get_arc _ a Hs Ha) as E. destruct (H (arc_place a)) as (A & B). unfold wt, ih in *. rewrite E in *. destruct (arc_inhib a); [apply B; reflexivity|exact A].
  - intros H p. unfold wt, ih. destruct (get_arc (bt_pre x) p) as [a|] eqn:E; [|split; [lia|discriminate]].
    apply get_arc_in in E. destruct E as (Ha & <-). specialize (H a Ha). destruct (arc_inhib a); split; try lia; intros w [= <-]; exact H.
Qed.

Definition tr_at (b : builder) (t : nat) : trans := mkTrans (bt_pre (tr_of b t)) (bt_post (tr_of b t)).
Lemma live_trans_in : forall b x, (exists i, nth_error (pn_trans (live_net b)) i = Some x) <-> exists t, live b t = true /\ x = tr_at b t.
Proof.
  intros b x. unfold live_net. cbn [pn_trans]. split.
  - intros (i & H). apply nth_error_In in H. apply in_map_iff in H. destruct H as (y & <- & Hy). apply filter_In in Hy. destruct Hy as (Hy & Hs).
    apply In_nth with (d := btrans0) in Hy. destruct Hy as (t & Ht & E). exists t. unfold live, tr_at, tr_of. rewrite E. split; [|reflexivity].
    apply andb_true_iff. split; [apply Nat.ltb_lt; exact Ht|exact Hs].
  - intros (t & Hl & ->). unfold live in Hl. apply andb_true_iff in Hl. destruct Hl as (H1 & H2). apply Nat.ltb_lt in H1.
    apply In_nth_error. apply in_map_iff. exists (tr_of b t). split; [reflexivity|]. apply filter_In. split; [|exact H2]. unfold tr_of. apply nth_In. exact H1.
Qed.
Lemma post_places : forall b t p, good b -> (wt (bt_post (tr_of b t)) p <> 0%N -> p < length (b_init b)).
Proof.
  intros b t p G H. unfold wt in H. destruct (get_arc (bt_post (tr_of b t)) p) as [a|] eqn:E; [|congruence]. apply get_arc_in in E. destruct E as (Ha & <-).
  rewrite (g_ni G), <- (g_np G). apply pl_range. apply (g_post G t a Ha).
Qed.
Lemma fires_afire : forall b t m m', good b -> length m = length (b_init b) ->
  (fires (tr_at b t) m m' <-> aen (atr_of (tr_of b t)) (tokens m) /\ length m' = length m /\ ext (tokens m') (afire (atr_of (tr_of b t)) (tokens m))).
Proof.
  intros b t m m' G L. unfold fires, enabled, tr_at. cbn [tr_pre tr_post]. rewrite (@aen_arcs (tr_of b t) (tokens m) (g_spre G t)). unfold arc_ok.
  split; intros (A & B & C); (split; [exact A|]); (split; [exact B|]).
  - intros p. unfold afire, atr_of. cbn [a_in a_out]. destruct (Nat.lt_ge_cases p (length m)) as [Hp|Hp].
    + destruct (C p Hp) as (C1 & C2). rewrite C2, !weight_at_wt by (apply (g_spre G) || apply (g_spost G)). reflexivity.
    + unfold tokens. rewrite !nth_overflow by lia. destruct (N.eq_dec (wt (bt_post (tr_of b t)) p) 0) as [Z|Z]; [rewrite Z; lia|]. apply (@post_places b t p G) in Z. lia.
  - intros p Hp. rewrite !weight_at_wt by (apply (g_spre G) || apply (g_spost G)). split; [|apply C].
    pose proof (proj2 (@aen_arcs (tr_of b t) (tokens m) (g_spre G t)) A) as En. apply En.
Qed.
Lemma reach_areach : forall b m, good b -> reach b m -> length m = length (b_init b) /\ areach (anet_of b) (tokens m).
Proof.
  intros b m G (w & R).
  assert (H : forall m0 w m, run (live_net b) m0 w m -> length m0 = length (b_init b) -> areach (anet_of b) (tokens m0) -> length m = length (b_init b) /\ areach (anet_of b) (tokens m)).
  { clear m w R. intros m0 w m R. induction R as [m|m t m1 w m2 (x & Hx & F) R IH]; intros L A; [split; assumption|].
    destruct (proj1 (live_trans_in b x) (ex_intro _ t Hx)) as (t' & Hl & ->). apply fires_afire in F; [|exact G|exact L]. destruct F as (En & L' & X).
    apply IH; [congruence|]. eapply areach_step; [exact A| |exact En|exact X]. cbn. rewrite Hl. reflexivity. }
  apply (H _ _ _ R); [reflexivity|]. apply ar_nil. intros p. reflexivity.
Qed.
Lemma areach_reach : forall b f, good b -> areach (anet_of b) f -> exists m, reach b m /\ ext f (tokens m).
Proof.
  intros b f G. revert f. apply areach_ind.
  - intros f E. exists (b_init b). split; [exists []; constructor|]. exact E.
  - intros f t x f1 _ (m & R & E) Ht En X. cbn in Ht. destruct (live b t) eqn:Hl; [|discriminate]. injection Ht as <-.
    destruct (reach_areach G R) as (L & _).
    set (m1 := map (afire (atr_of (tr_of b t)) (tokens m)) (seq 0 (length m))).
    assert (T1 : ext (tokens m1) (afire (atr_of (tr_of b t)) (tokens m))).
    { intros p. unfold m1, tokens at 1. destruct (Nat.lt_ge_cases p (length m)) as [Hp|Hp].
      - rewrite nth_indep with (d' := afire (atr_of (tr_of b t)) (tokens m) 0) by (rewrite map_length, seq_length; exact Hp). rewrite map_nth, seq_nth by exact Hp. reflexivity.
      - rewrite nth_overflow by (rewrite map_length, seq_length; exact Hp). unfold afire, atr_of, tokens. cbn [a_in a_out]. rewrite nth_overflow by exact Hp.
        destruct (N.eq_dec (wt (bt_post (tr_of b t)) p) 0) as [Z|Z]; [rewrite Z; lia|]. apply (@post_places b t p G) in Z. lia. }
    exists m1. split.
    + destruct R as (w & R). destruct (proj2 (live_trans_in b (tr_at b t)) (ex_intro _ t (conj Hl eq_refl))) as (i & Hi).
      exists (w ++ [i]). assert (St : step (live_net b) m i m1).
      { exists (tr_at b t). split; [exact Hi|]. apply fires_afire; [exact G|exact L|]. split; [eapply aen_ext; eauto|]. split; [unfold m1; rewrite map_length, seq_length; reflexivity|exact T1]. }
      clear - R St. induction R; cbn; [econstructor; [exact St|constructor]|econstructor; eauto].
    + eapply ext_trans; [exact X|]. eapply ext_trans; [apply afire_ext; exact E|]. apply ext_sym. exact T1.
Qed.
Lemma same_views_intro : forall inq b b', good b -> good b' -> same inq (anet_of b) (anet_of b') -> same_views inq b b'.
Proof.
  intros inq b b' G G' (S1 & S2) f Hf. split.
  - intros (m & R & F). destruct (reach_areach G R) as (_ & A). destruct (S1 _ A) as (f' & A' & E). destruct (areach_reach G' A') as (m' & R' & E').
    exists m'. split; [exact R'|]. apply (Hf m); [|exact F]. intros p Hp. rewrite E by exact Hp. apply E'.
  - intros (m & R & F). destruct (reach_areach G' R) as (_ & A). destruct (S2 _ A) as (f' & A' & E). destruct (areach_reach G A') as (m' & R' & E').
    exists m'. split; [exact R'|]. apply (Hf m); [|exact F]. intros p Hp. rewrite E by exact Hp. apply E'.
Qed.
Lemma same_views_refl : forall inq b, same_views inq b b.
Proof. intros inq b f _. tauto. Qed.
Lemma same_views_trans : forall inq a b c, same_views inq a b -> same_views inq b c -> same_views inq a c.
Proof. intros inq a b c H1 H2 f Hf. rewrite (H1 f Hf). apply H2. exact Hf. Qed.
