(** The moves delivered by GameSuccessorGenerator (C35). *)
From Verif Require Import Base BaseLemmas NetSpec NetModel NetProofs StoreProofs SearchMain SynModel.
Set Implicit Arguments.

Section Layout.
  Variable net : cnet.
  Variable L : layout net.
  Variable m : marking.
  Hypothesis Hm : length m = cn_places net.
  Variable ok : nat -> bool.

  Lemma next_trans_p_ok : forall k t, t + k <= cn_ntrans net ->
    next_trans_p net ok m t k =
      Ok (find (fun i => enabledb (net_trans net i) m && ok i) (seq t k)).
  Proof.
    induction k as [|k IH]; intros t Hk; cbn [next_trans_p seq find]; [reflexivity|].
    rewrite (@check_preset_ok net L m Hm) by lia. cbn [bind].
    destruct (enabledb (net_trans net t) m && ok t); [reflexivity|]. apply IH; lia.
  Qed.

  Definition first_p (c : nat) : option nat :=
    find (fun i => enabledb (net_trans net i) m && ok i) (seq c (cn_ntrans net - c)).

  Lemma first_p_split : forall c d, c <= d -> d <= cn_ntrans net ->
    first_p c =
    match find (fun i => enabledb (net_trans net i) m && ok i) (seq c (d - c)) with
    | Some x => Some x
    | None => first_p d
    end.
  Proof.
    intros c d H1 H2. unfold first_p.
    replace (cn_ntrans net - c) with ((d - c) + (cn_ntrans net - d)) by lia.
    rewrite seq_app, find_app. replace (c + (d - c)) with d by lia. reflexivity.
  Qed.

  Lemma next_place_p_ok : forall k p tc,
    p + k = cn_places net -> gen_ok net m (mkGen p tc) ->
    match first_p (cursor net (mkGen p tc)) with
    | None => exists g, next_place_p net ok m p tc k = Ok (None, g)
    | Some t => exists g, gen_ok net m g /\ cursor net g = S t /\
        next_place_p net ok m p tc k = (m' <- fire net m t ;; Ok (Some (t, m'), g))
    end.
  Proof.
    induction k as [|k IH]; intros p tc Hk (Hp & Htc); cbn [g_p g_t] in *.
    - assert (p = cn_places net) by lia. subst p.
      destruct tc as [t|]; [lia|].
      unfold cursor; cbn [g_t g_p]. rewrite gptr_last by exact L. unfold first_p.
      rewrite Nat.sub_diag. cbn [seq find next_place_p]. eauto.
    - cbn [next_place_p].
      assert (Hgo : exists go, (if p =? 0 then Ok true else v <- rd m p;; Ok (0 <? v)%N) = Ok go /\
                 (go = true -> p = 0 \/ (0 < tokens m p)%N) /\
                 (go = false -> 0 < p /\ tokens m p = 0%N)).
      { destruct (Nat.eqb_spec p 0) as [->|Hne].
        - exists true. repeat split; auto; discriminate.
        - rewrite (@rd_nth _ m p 0%N) by lia. cbn [bind]. fold (tokens m p).
          exists (0 <? tokens m p)%N. destruct (N.ltb_spec 0 (tokens m p)); repeat split; auto; try discriminate; lia. }
      destruct Hgo as (go & Hgo & Hgt & Hgf). rewrite Hgo; cbn [bind].
      pose proof (@gptr_mono1 net L p) as Hmono. pose proof (@gptr_bound net L (S p)) as Hb.
      specialize (IH (S p) None). cbn [g_p g_t] in IH.
      assert (IHok : gen_ok net m (mkGen (S p) None)) by (split; cbn; [lia|exact I]).
      specialize (IH ltac:(lia) IHok).
      assert (Hcs : cursor net (mkGen (S p) None) = gptr net (S p)) by reflexivity.
      rewrite Hcs in IH.
      destruct go.
      + (* examine the group *)
        set (t0 := cursor net (mkGen p tc)).
        assert (Ht0 : gptr net p <= t0 <= gptr net (S p)).
        { unfold t0, cursor; cbn. destruct tc as [t|]; [exact (proj1 Htc)|lia]. }
        assert (Hrd0 : (match tc with None => rd (cn_ptrs net) p | Some t => Ok t end) = Ok t0).
        { unfold t0, cursor; cbn. destruct tc as [t|]; [reflexivity|].
          apply rd_some, gptr_rd; [exact L|lia]. }
        rewrite Hrd0; cbn [bind]. rewrite (@rd_some _ _ _ _ (@gptr_rd net L (S p) ltac:(lia))); cbn [bind].
        destruct (Nat.ltb_spec (gptr net (S p)) t0); [lia|].
        rewrite next_trans_p_ok by lia. cbn [bind].
        rewrite (@first_p_split t0 (gptr net (S p))) by lia.
        destruct (find _ (seq t0 (gptr net (S p) - t0))) as [t|] eqn:Hf.
        * apply (@find_seq_some net m Hm) in Hf. destruct Hf as (Hr & _).
          exists (mkGen p (Some (S t))). split; [|split; [reflexivity|]].
          -- split; cbn; [lia|]. repeat split; try lia.
          -- destruct (fire net m t); reflexivity.
        * exact IH.
      + (* skipped group *)
        destruct (Hgf eq_refl) as (Hp0 & Hz).
        assert (tc = None) as ->.
        { destruct tc as [t|]; [|reflexivity]. destruct Htc as (_ & _ & [?|?]); lia. }
        assert (Hc : cursor net (mkGen p None) = gptr net p) by reflexivity. rewrite Hc.
        rewrite (@first_p_split (gptr net p) (gptr net (S p))) by lia.
        rewrite (@find_none_false _ _ (seq (gptr net p) (gptr net (S p) - gptr net p))).
        * exact IH.
        * intros i Hi. apply in_seq in Hi. rewrite (@group_empty net L m Hm p i); auto; lia.
  Qed.


  Lemma game_stream_fire : forall fuel g, gen_ok net m g -> cn_ntrans net - cursor net g < fuel -> cursor net g <= cn_ntrans net ->
    game_stream fuel net ok m g =
    fire_stream net m (filter (fun i => enabledb (net_trans net i) m && ok i) (seq (cursor net g) (cn_ntrans net - cursor net g))).
  Proof.
    induction fuel as [|f IH]; intros g Hg Hf Hc; [lia|].
    cbn [game_stream]. destruct g as [p tc]; cbn [g_p g_t].
    assert (Hp : p + (cn_places net - p) = cn_places net) by (destruct Hg as (H & _); cbn in H; lia).
    pose proof (@next_place_p_ok (cn_places net - p) p tc Hp Hg) as H.
    rewrite (@filter_find net m Hm). unfold first_p in H.
    destruct (find _ _) as [t|] eqn:Hfd.
    - destruct H as (g' & Hg' & Hcur & ->).
      apply (@find_seq_some net m Hm) in Hfd. destruct Hfd as (Hr & _).
      cbn [fire_stream]. destruct (fire net m t) as [m'| | |]; cbn [bind fst snd]; try reflexivity.
      rewrite (IH g' Hg'); [|lia|lia].
      rewrite Hcur. replace (cursor net {| g_p := p; g_t := tc |} +
          (cn_ntrans net - cursor net {| g_p := p; g_t := tc |}) - S t) with (cn_ntrans net - S t) by lia.
      reflexivity.
    - destruct H as (g' & ->). reflexivity.
  Qed.
End Layout.

Lemma filter_length' : forall {A} (f : A -> bool) l, length (filter f l) <= length l.
Proof. intros A f l. induction l as [|x l IH]; cbn; [lia|]. destruct (f x); cbn; lia. Qed.
Lemma fire_stream_len : forall net m l, length (fst (fire_stream net m l)) <= length l.
Proof. intros net m l. induction l as [|x l IH]; cbn; [lia|]. destruct (fire net m x); cbn; lia. Qed.

(** Only steps of the right player; all of them unless it throws. *)
Lemma game_stream_ok : forall net ok m, layout net -> length m = cn_places net -> fits32 m ->
  let r := game_stream (S (cn_ntrans net)) net ok m gen_prepare in
  (forall t m', In (t, m') (fst r) -> ok t = true /\ step (to_pnet net) m t m' /\ length m' = cn_places net /\ fits32 m') /\
  length (fst r) <= cn_ntrans net /\
  ((snd r = Ok tt /\ forall t m', ok t = true -> step (to_pnet net) m t m' -> In (t, m') (fst r)) \/
   (snd r = Throw /\ exists t tr, ok t = true /\ nth_error (pn_trans (to_pnet net)) t = Some tr /\ enabled tr m /\ overflows tr m)).
Proof.
  intros net ok m L Hm Hf r. unfold r. rewrite game_stream_fire; auto.
  2:{ split; cbn; [lia|exact I]. }
  2:{ unfold cursor, gen_prepare; cbn [g_t g_p]. rewrite gptr_0 by exact L. lia. }
  2:{ unfold cursor, gen_prepare; cbn [g_t g_p]. rewrite gptr_0 by exact L. lia. }
  unfold cursor, gen_prepare; cbn [g_t g_p]. rewrite gptr_0, Nat.sub_0_r by exact L.
  set (l := filter _ _).
  assert (Hl : forall t, In t l <-> t < cn_ntrans net /\ enabled (net_trans net t) m /\ ok t = true).
  { intros t. unfold l. rewrite filter_In, in_seq, andb_true_iff, enabledb_spec. intuition lia. }
  destruct (@fire_stream_ok net m L Hm Hf l) as (H1 & H2); [intros t Ht; apply Hl in Ht; intuition|].
  split; [|split].
  - intros t m' Hi. destruct (H1 _ _ Hi) as (Ht & Hfi & Hno). apply Hl in Ht. destruct Ht as (Ht & Hen & Hok).
    split; [exact Hok|].
    split; [exists (net_trans net t); split; [apply net_trans_in; exact Ht|exact Hfi]|].
    destruct Hfi as (_ & Hlen & Htok). split; [lia|]. intros p.
    destruct (Nat.lt_ge_cases p (length m)) as [Hp|Hp].
    2:{ unfold tokens. rewrite nth_overflow by lia. lia. }
    destruct (Htok p Hp) as (Hle & ->). assert (Hfp := Hf p).
    destruct (wf_net_trans L Ht) as (_ & Hpost & _ & Hnd).
    destruct (in_dec Nat.eq_dec p (map arc_place (tr_post (net_trans net t)))) as [Hi2|Hi2].
    + apply in_map_iff in Hi2. destruct Hi2 as (a & <- & Ha).
      assert (Hw : weight_at (tr_post (net_trans net t)) (arc_place a) = arc_weight a).
      { clear - Ha Hnd Hpost. induction (tr_post (net_trans net t)) as [|b l IH]; [contradiction|].
        rewrite weight_at_cons. simpl in Hnd. inversion Hnd as [|? ? Hn1 Hn2]; subst.
        destruct Ha as [->|Ha].
        - rewrite Nat.eqb_refl, (proj2 (Hpost a (or_introl eq_refl))), weight_at_notin by exact Hn1. simpl. lia.
        - destruct (Nat.eqb_spec (arc_place b) (arc_place a)) as [E|_].
          + exfalso. apply Hn1. rewrite E. apply in_map. exact Ha.
          + cbn [andb]. rewrite IH; [lia|intros; apply Hpost; right; assumption|exact Hn2|exact Ha]. }
      rewrite Hw. destruct (N.lt_ge_cases (tokens m (arc_place a) - weight_at (tr_pre (net_trans net t)) (arc_place a) + arc_weight a) (2 ^ 32 - 1)) as [Hlt|Hge]; [lia|].
      exfalso. apply Hno. exists a. auto.
    + rewrite (weight_at_notin _ _ Hi2). lia.
  - rewrite fire_stream_len. unfold l. rewrite filter_length'. rewrite seq_length. lia.
  - destruct H2 as [(H2 & H3)|(H2 & t & H3 & H4)].
    + left. split; [exact H2|]. intros t m' Hok (tr & Hn & Hfi). apply net_trans_inv in Hn. destruct Hn as (Ht & ->).
      assert (Hin : In t l) by (apply Hl; split; [exact Ht|split; [exact (proj1 Hfi)|exact Hok]]).
      rewrite <- H3 in Hin. apply in_map_iff in Hin. destruct Hin as ((t1 & m1) & E & Hi1). simpl in E; subst t1.
      destruct (H1 _ _ Hi1) as (_ & Hf1 & _). rewrite (fires_det Hfi Hf1). exact Hi1.
    + right. split; [exact H2|]. apply Hl in H3. destruct H3 as (Ht & Hen & Hok). exists t, (net_trans net t).
      split; [exact Hok|]. split; [apply net_trans_in; exact Ht|auto].
Qed.
