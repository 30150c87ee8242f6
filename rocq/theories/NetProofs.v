(** Proofs about the net model (C01, C02). *)
From Verif Require Import Base BaseLemmas NetSpec NetModel.
Set Implicit Arguments.

Arguments N.pow : simpl never.
Arguments N.add : simpl never.
Arguments N.sub : simpl never.
Arguments N.modulo : simpl never.

(** Boolean version of [arc_ok]. *)
Definition arc_okb (m : marking) (a : arc) : bool :=
  if arc_inhib a then (tokens m (arc_place a) <? arc_weight a)%N
  else (arc_weight a <=? tokens m (arc_place a))%N.

Lemma arc_okb_spec : forall m a, arc_okb m a = true <-> arc_ok m a.
Proof.
  intros m a; unfold arc_okb, arc_ok; destruct (arc_inhib a).
  - apply N.ltb_lt.
  - apply N.leb_le.
Qed.

Definition enabledb (t : trans) (m : marking) : bool := forallb (arc_okb m) (tr_pre t).

Lemma enabledb_spec : forall t m, enabledb t m = true <-> enabled t m.
Proof.
  intros t m; unfold enabledb, enabled. rewrite forallb_forall.
  split; intros H a Ha; apply arc_okb_spec; auto.
Qed.

Section Arcs.
  Variable net : cnet.
  Variable m : marking.
  Hypothesis Hm : length m = cn_places net.

  (** Loops over a slice of the invariant array. *)
  Lemma check_loop_ok : forall k a,
    a + k <= length (cn_invs net) ->
    (forall iv, In iv (slice (cn_invs net) a (a + k)) -> iv_place iv < cn_places net) ->
    check_preset_loop net m a k =
      Ok (forallb (arc_okb m) (map inv_arc (slice (cn_invs net) a (a + k)))).
  Proof.
    induction k as [|k IH]; intros a Hlen Hp; cbn [check_preset_loop].
    - rewrite Nat.add_0_r, slice_nil. reflexivity.
    - destruct (nth_error_ex (cn_invs net) (i := a)) as [iv Hiv]; [lia|].
      assert (Hs : slice (cn_invs net) a (a + S k) = iv :: slice (cn_invs net) (S a) (S a + k)).
      { rewrite (@slice_cons _ _ a (a + S k) iv); [|lia|exact Hiv].
        do 2 f_equal; lia. }
      rewrite Hs in *. rewrite (rd_some _ _ Hiv). cbn [bind map forallb].
      assert (Hpl : iv_place iv < cn_places net) by (apply Hp; left; reflexivity).
      rewrite (@rd_nth _ m (iv_place iv) 0%N) by lia. cbn [bind].
      fold (tokens m (iv_place iv)).
      assert (IH' := IH (S a)). rewrite IH'; [|lia|intros iv' Hi; apply Hp; right; exact Hi].
      assert (Hoa : arc_okb m (inv_arc iv) =
                if iv_inhib iv then (tokens m (iv_place iv) <? iv_tokens iv)%N
                else (iv_tokens iv <=? tokens m (iv_place iv))%N) by reflexivity.
      rewrite Hoa.
      destruct (iv_inhib iv); cbn [negb];
      destruct (N.ltb_spec (tokens m (iv_place iv)) (iv_tokens iv)); cbn [andb]; try reflexivity.
      + destruct (N.leb_spec (iv_tokens iv) (tokens m (iv_place iv))); [lia|reflexivity].
      + destruct (N.leb_spec (iv_tokens iv) (tokens m (iv_place iv))); [reflexivity|lia].
  Qed.

  Lemma dead_arcs_check : forall k a, dead_arcs net m a k = check_preset_loop net m a k.
  Proof.
    induction k as [|k IH]; intros a; cbn [dead_arcs check_preset_loop]; [reflexivity|].
    destruct (rd (cn_invs net) a) as [iv| | |]; cbn [bind]; try reflexivity.
    destruct (rd m (iv_place iv)) as [v| | |]; cbn [bind]; try reflexivity.
    rewrite IH.
    destruct (iv_inhib iv); cbn [negb]; [reflexivity|].
    rewrite N.ltb_antisym. destruct (iv_tokens iv <=? v)%N; reflexivity.
  Qed.

  Lemma fireable_loop_check : forall k a, fireable_loop net m a k = check_preset_loop net m a k.
  Proof.
    induction k as [|k IH]; intros a; cbn [fireable_loop check_preset_loop]; [reflexivity|].
    destruct (rd (cn_invs net) a) as [iv| | |]; cbn [bind]; try reflexivity.
    destruct (rd m (iv_place iv)) as [v| | |]; cbn [bind]; try reflexivity.
    rewrite IH, N.ltb_antisym.
    destruct (iv_inhib iv), (iv_tokens iv <=? v)%N; reflexivity.
  Qed.
End Arcs.

(** Facts from the layout. *)
Section Layout.
  Variable net : cnet.
  Hypothesis L : layout net.

  Lemma ly_trans : forall t, t < cn_ntrans net ->
    exists a b, nth_error (cn_transitions net) t = Some a /\
                nth_error (cn_transitions net) (S t) = Some b /\
                fst a <= snd a <= fst b /\ fst b <= snd b <= length (cn_invs net) /\
                net_trans net t =
                  mkTrans (map inv_arc (slice (cn_invs net) (fst a) (snd a)))
                          (map out_arc_of (slice (cn_invs net) (snd a) (fst b))).
  Proof.
    intros t Ht. pose proof (ly_len_tr L) as Hl.
    destruct (nth_error_ex (cn_transitions net) (i := t)) as [a Ha]; [lia|].
    destruct (nth_error_ex (cn_transitions net) (i := S t)) as [b Hb]; [lia|].
    exists a, b. destruct (ly_io L _ Ha), (ly_io L _ Hb). pose proof (ly_oi L _ Ha Hb).
    repeat split; auto; try lia.
    unfold net_trans. rewrite (nth_error_nth _ _ (0,0) Ha), (nth_error_nth _ _ (0,0) Hb).
    reflexivity.
  Qed.

  Lemma net_trans_in : forall t, t < cn_ntrans net ->
    nth_error (pn_trans (to_pnet net)) t = Some (net_trans net t).
  Proof.
    intros t Ht. unfold to_pnet; cbn [pn_trans].
    rewrite nth_error_map.
    rewrite (@nth_error_nth' _ (seq 0 (cn_ntrans net)) t 0) by (rewrite seq_length; exact Ht).
    rewrite seq_nth by exact Ht. reflexivity.
  Qed.

  Lemma net_trans_inv : forall t tr, nth_error (pn_trans (to_pnet net)) t = Some tr ->
    t < cn_ntrans net /\ tr = net_trans net t.
  Proof.
    intros t tr H. assert (Hl := nth_error_lt _ _ H).
    unfold to_pnet in Hl; cbn [pn_trans] in Hl. rewrite map_length, seq_length in Hl.
    split; [exact Hl|]. rewrite net_trans_in in H by exact Hl. congruence.
  Qed.

  Lemma wf_net_trans : forall t, t < cn_ntrans net -> wf_trans (cn_places net) (net_trans net t).
  Proof.
    intros t Ht. apply (ly_wf L). eapply nth_error_In. apply net_trans_in; exact Ht.
  Qed.

  Lemma pre_places : forall t a, t < cn_ntrans net ->
    nth_error (cn_transitions net) t = Some a ->
    forall iv, In iv (slice (cn_invs net) (fst a) (snd a)) -> iv_place iv < cn_places net.
  Proof.
    intros t a Ht Ha iv Hiv.
    destruct (ly_trans Ht) as (a' & b & Ha' & Hb & _ & _ & Heq).
    assert (a' = a) by congruence; subst a'.
    destruct (wf_net_trans Ht) as (Hpre & _).
    change (iv_place iv) with (arc_place (inv_arc iv)). apply Hpre.
    rewrite Heq; cbn [tr_pre]. apply in_map; exact Hiv.
  Qed.

  Lemma post_places : forall t a b, t < cn_ntrans net ->
    nth_error (cn_transitions net) t = Some a ->
    nth_error (cn_transitions net) (S t) = Some b ->
    forall iv, In iv (slice (cn_invs net) (snd a) (fst b)) -> iv_place iv < cn_places net.
  Proof.
    intros t a b Ht Ha Hb iv Hiv.
    destruct (ly_trans Ht) as (a' & b' & Ha' & Hb' & _ & _ & Heq).
    assert (a' = a) by congruence; subst a'.
    assert (b' = b) by congruence; subst b'.
    destruct (wf_net_trans Ht) as (_ & Hpost & _).
    change (iv_place iv) with (arc_place (out_arc_of iv)). apply Hpost.
    rewrite Heq; cbn [tr_post]. apply in_map; exact Hiv.
  Qed.

  (** Group boundaries as a function. *)
  Definition gptr (p : nat) : nat := nth p (cn_ptrs net) 0.

  Lemma gptr_rd : forall p, p <= cn_places net -> nth_error (cn_ptrs net) p = Some (gptr p).
  Proof.
    intros p Hp. unfold gptr. apply nth_error_nth'. rewrite (ly_len_ptr L). lia.
  Qed.

  Lemma gptr_mono1 : forall p, p < cn_places net -> gptr p <= gptr (S p).
  Proof.
    intros p Hp. eapply (ly_pp L); apply gptr_rd; lia.
  Qed.

  Lemma gptr_mono : forall p q, p <= q -> q <= cn_places net -> gptr p <= gptr q.
  Proof.
    intros p q Hpq; induction Hpq as [|q Hpq IH]; intros Hq; [lia|].
    pose proof (@gptr_mono1 q). lia.
  Qed.

  Lemma gptr_last : gptr (cn_places net) = cn_ntrans net.
  Proof.
    pose proof (ly_last L) as H. rewrite gptr_rd in H by lia. congruence.
  Qed.

  Lemma gptr_0 : gptr 0 = 0.
  Proof.
    pose proof (ly_first L) as H. rewrite gptr_rd in H by lia. congruence.
  Qed.

  Lemma gptr_bound : forall p, p <= cn_places net -> gptr p <= cn_ntrans net.
  Proof. intros p Hp. rewrite <- gptr_last. apply gptr_mono; lia. Qed.

  Variable m : marking.
  Hypothesis Hm : length m = cn_places net.

  Lemma check_preset_ok : forall t, t < cn_ntrans net ->
    check_preset net m t = Ok (enabledb (net_trans net t) m).
  Proof.
    intros t Ht. destruct (ly_trans Ht) as (a & b & Ha & Hb & H1 & H2 & Heq).
    unfold check_preset. rewrite (rd_some _ _ Ha); cbn [bind].
    pose proof (@check_loop_ok net m Hm (snd a - fst a) (fst a)) as H.
    replace (fst a + (snd a - fst a)) with (snd a) in H by lia.
    rewrite H; [|lia|exact (pre_places Ht Ha)].
    unfold enabledb. rewrite Heq. reflexivity.
  Qed.

  Lemma fireable_ok : forall t, t < cn_ntrans net ->
    fireable net m t = Ok (enabledb (net_trans net t) m).
  Proof.
    intros t Ht. rewrite <- check_preset_ok by exact Ht.
    unfold fireable, check_preset. destruct (rd (cn_transitions net) t); cbn [bind]; try reflexivity.
    apply fireable_loop_check.
  Qed.

  (** The transition loop. *)
  Lemma next_trans_ok : forall k t, t + k <= cn_ntrans net ->
    next_trans net m t k =
      Ok (find (fun i => enabledb (net_trans net i) m) (seq t k)).
  Proof.
    induction k as [|k IH]; intros t Hk; cbn [next_trans seq find]; [reflexivity|].
    rewrite check_preset_ok by lia. cbn [bind].
    destruct (enabledb (net_trans net t) m); [reflexivity|]. apply IH; lia.
  Qed.

  Lemma dead_trans_ok : forall k t, t + k <= cn_ntrans net ->
    dead_trans net m t k = Ok (existsb (fun i => enabledb (net_trans net i) m) (seq t k)).
  Proof.
    induction k as [|k IH]; intros t Hk; cbn [dead_trans seq existsb]; [reflexivity|].
    assert (H : check_preset net m t = Ok (enabledb (net_trans net t) m)) by (apply check_preset_ok; lia).
    unfold check_preset in H.
    destruct (rd (cn_transitions net) t) as [ptr| | |]; cbn [bind] in *; try discriminate.
    rewrite dead_arcs_check, H; cbn [bind].
    destruct (enabledb (net_trans net t) m); [reflexivity|]. apply IH; lia.
  Qed.

  (** A group under an empty place other than the first has no enabled transition. *)
  Lemma group_empty : forall p t, 0 < p -> p < cn_places net ->
    tokens m p = 0%N -> gptr p <= t < gptr (S p) -> enabledb (net_trans net t) m = false.
  Proof.
    intros p t H0 Hp Hz Ht.
    destruct (enabledb (net_trans net t) m) eqn:E; [|reflexivity].
    apply enabledb_spec in E.
    assert (HS := @gptr_rd (S p)). assert (HP := @gptr_rd p).
    destruct (@ly_group net L p (gptr p) (gptr (S p)) t) as (w & Hin & Hw); auto; try (apply gptr_rd; lia).
    specialize (E _ Hin). unfold arc_ok in E; simpl in E. lia.
  Qed.

  Lemma find_none_false : forall {A} (f : A -> bool) l, (forall x, In x l -> f x = false) -> find f l = None.
  Proof.
    intros A f; induction l as [|x l IH]; intros H; simpl; [reflexivity|].
    rewrite (H x) by (left; reflexivity). apply IH; intros y Hy; apply H; right; exact Hy.
  Qed.

  Lemma find_app : forall {A} (f : A -> bool) l1 l2,
    find f (l1 ++ l2) = match find f l1 with Some x => Some x | None => find f l2 end.
  Proof.
    intros A f; induction l1 as [|x l1 IH]; intros l2; simpl; [reflexivity|].
    destruct (f x); [reflexivity|apply IH].
  Qed.

  (** A generator position stands for the first transition not yet examined. *)
  Definition cursor (g : gen) : nat :=
    match g_t g with Some t => t | None => gptr (g_p g) end.

  Definition gen_ok (g : gen) : Prop :=
    g_p g <= cn_places net /\
    match g_t g with
    | None => True
    | Some t => gptr (g_p g) <= t <= gptr (S (g_p g)) /\ g_p g < cn_places net /\
                (g_p g = 0 \/ (0 < tokens m (g_p g))%N)
    end.

  Definition first_from (c : nat) : option nat :=
    find (fun i => enabledb (net_trans net i) m) (seq c (cn_ntrans net - c)).

  Lemma first_from_split : forall c d, c <= d -> d <= cn_ntrans net ->
    first_from c =
    match find (fun i => enabledb (net_trans net i) m) (seq c (d - c)) with
    | Some x => Some x
    | None => first_from d
    end.
  Proof.
    intros c d H1 H2. unfold first_from.
    replace (cn_ntrans net - c) with ((d - c) + (cn_ntrans net - d)) by lia.
    rewrite seq_app, find_app. replace (c + (d - c)) with d by lia. reflexivity.
  Qed.

  Lemma find_seq_some : forall (f : nat -> bool) k c t, find f (seq c k) = Some t ->
    c <= t < c + k /\ f t = true /\ forall i, c <= i < t -> f i = false.
  Proof.
    intros f; induction k as [|k IH]; intros c t H; simpl in H; [discriminate|].
    destruct (f c) eqn:E.
    - injection H as <-. repeat split; try lia. exact E.
    - apply IH in H. destruct H as (H1 & H2 & H3). repeat split; try lia; auto.
      intros i Hi. destruct (Nat.eq_dec i c) as [->|]; [exact E|apply H3; lia].
  Qed.

  Lemma next_place_ok : forall k p tc,
    p + k = cn_places net -> gen_ok (mkGen p tc) ->
    match first_from (cursor (mkGen p tc)) with
    | None => exists g, next_place net m p tc k = Ok (None, g)
    | Some t => exists g, gen_ok g /\ cursor g = S t /\
        next_place net m p tc k = (m' <- fire net m t ;; Ok (Some (t, m'), g))
    end.
  Proof.
    induction k as [|k IH]; intros p tc Hk (Hp & Htc); cbn [g_p g_t] in *.
    - assert (p = cn_places net) by lia. subst p.
      destruct tc as [t|]; [lia|].
      unfold cursor; cbn [g_t g_p]. rewrite gptr_last. unfold first_from.
      rewrite Nat.sub_diag. cbn [seq find next_place]. eauto.
    - cbn [next_place].
      assert (Hgo : exists go, (if p =? 0 then Ok true else v <- rd m p;; Ok (0 <? v)%N) = Ok go /\
                 (go = true -> p = 0 \/ (0 < tokens m p)%N) /\
                 (go = false -> 0 < p /\ tokens m p = 0%N)).
      { destruct (Nat.eqb_spec p 0) as [->|Hne].
        - exists true. repeat split; auto; discriminate.
        - rewrite (@rd_nth _ m p 0%N) by lia. cbn [bind]. fold (tokens m p).
          exists (0 <? tokens m p)%N. destruct (N.ltb_spec 0 (tokens m p)); repeat split; auto; try discriminate; lia. }
      destruct Hgo as (go & Hgo & Hgt & Hgf). rewrite Hgo; cbn [bind].
      pose proof (@gptr_mono1 p) as Hmono. pose proof (@gptr_bound (S p)) as Hb.
      specialize (IH (S p) None). cbn [g_p g_t] in IH.
      assert (IHok : gen_ok (mkGen (S p) None)) by (split; cbn; [lia|exact I]).
      specialize (IH ltac:(lia) IHok).
      assert (Hcs : cursor (mkGen (S p) None) = gptr (S p)) by reflexivity.
      rewrite Hcs in IH.
      destruct go.
      + (* examine the group *)
        set (t0 := cursor (mkGen p tc)).
        assert (Ht0 : gptr p <= t0 <= gptr (S p)).
        { unfold t0, cursor; cbn. destruct tc as [t|]; [exact (proj1 Htc)|lia]. }
        assert (Hrd0 : (match tc with None => rd (cn_ptrs net) p | Some t => Ok t end) = Ok t0).
        { unfold t0, cursor; cbn. destruct tc as [t|]; [reflexivity|].
          apply rd_some, gptr_rd; lia. }
        rewrite Hrd0; cbn [bind]. rewrite (@rd_some _ _ _ _ (@gptr_rd (S p) ltac:(lia))); cbn [bind].
        destruct (Nat.ltb_spec (gptr (S p)) t0); [lia|].
        rewrite next_trans_ok by lia. cbn [bind].
        rewrite (@first_from_split t0 (gptr (S p))) by lia.
        destruct (find _ (seq t0 (gptr (S p) - t0))) as [t|] eqn:Hf.
        * apply find_seq_some in Hf. destruct Hf as (Hr & _).
          exists (mkGen p (Some (S t))). split; [|split; [reflexivity|]].
          -- split; cbn; [lia|]. repeat split; try lia.
          -- destruct (fire net m t); reflexivity.
        * exact IH.
      + (* skipped group *)
        destruct (Hgf eq_refl) as (Hp0 & Hz).
        assert (tc = None) as ->.
        { destruct tc as [t|]; [|reflexivity]. destruct Htc as (_ & _ & [?|?]); lia. }
        assert (Hc : cursor (mkGen p None) = gptr p) by reflexivity. rewrite Hc.
        rewrite (@first_from_split (gptr p) (gptr (S p))) by lia.
        rewrite (@find_none_false _ _ (seq (gptr p) (gptr (S p) - gptr p))).
        * exact IH.
        * intros i Hi. apply in_seq in Hi. eapply group_empty; eauto; lia.
  Qed.

  (** The whole enumeration. *)
  Fixpoint fire_all (l : list nat) : res (list (nat * list N)) :=
    match l with
    | [] => Ok []
    | t :: l' =>
      m' <- fire net m t ;;
      r <- fire_all l' ;;
      Ok ((t, m') :: r)
    end.

  Lemma filter_none : forall {A} (f : A -> bool) l, (forall x, In x l -> f x = false) -> filter f l = [].
  Proof.
    intros A f; induction l as [|x l IH]; intros H; simpl; [reflexivity|].
    rewrite (H x) by (left; reflexivity). apply IH; intros y Hy; apply H; right; exact Hy.
  Qed.

  Lemma filter_find : forall (f : nat -> bool) k c,
    filter f (seq c k) =
    match find f (seq c k) with
    | None => []
    | Some t => t :: filter f (seq (S t) (c + k - S t))
    end.
  Proof.
    intros f; induction k as [|k IH]; intros c; simpl; [reflexivity|].
    destruct (f c).
    - do 2 f_equal. f_equal. lia.
    - rewrite IH. destruct (find f (seq (S c) k)); [|reflexivity].
      do 3 f_equal. lia.
  Qed.

  Lemma gen_all_ok : forall fuel g, gen_ok g ->
    cn_ntrans net - cursor g < fuel -> cursor g <= cn_ntrans net ->
    gen_all fuel net m g =
    fire_all (filter (fun i => enabledb (net_trans net i) m)
                (seq (cursor g) (cn_ntrans net - cursor g))).
  Proof.
    induction fuel as [|f IH]; intros g Hg Hf Hc; [lia|].
    cbn [gen_all]. unfold gen_next.
    destruct g as [p tc]; cbn [g_p g_t].
    assert (Hp : p + (cn_places net - p) = cn_places net) by (destruct Hg as (H & _); cbn in H; lia).
    pose proof (@next_place_ok (cn_places net - p) p tc Hp Hg) as H.
    rewrite filter_find. unfold first_from in H.
    destruct (find _ _) as [t|] eqn:Hfd.
    - destruct H as (g' & Hg' & Hcur & ->).
      apply find_seq_some in Hfd. destruct Hfd as (Hr & _).
      cbn [fire_all]. destruct (fire net m t) as [m'| | |]; cbn [bind fst snd]; try reflexivity.
      rewrite (IH g' Hg'); [|lia|lia].
      rewrite Hcur. replace (cursor {| g_p := p; g_t := tc |} +
          (cn_ntrans net - cursor {| g_p := p; g_t := tc |}) - S t) with (cn_ntrans net - S t) by lia.
      reflexivity.
    - destruct H as (g' & ->). reflexivity.
  Qed.

  Lemma successors_ok :
    successors net m =
    fire_all (filter (fun i => enabledb (net_trans net i) m) (seq 0 (cn_ntrans net))).
  Proof.
    unfold successors. rewrite gen_all_ok.
    - unfold cursor, gen_prepare; cbn [g_t g_p]. rewrite gptr_0, Nat.sub_0_r. reflexivity.
    - split; cbn; [lia|exact I].
    - unfold cursor, gen_prepare; cbn [g_t g_p]. rewrite gptr_0. lia.
    - unfold cursor, gen_prepare; cbn [g_t g_p]. rewrite gptr_0. lia.
  Qed.
End Layout.

(** Firing. *)
Lemma weight_at_nil : forall p, weight_at [] p = 0%N.
Proof. reflexivity. Qed.

Lemma weight_at_cons : forall a l p,
  weight_at (a :: l) p =
  ((if Nat.eqb (arc_place a) p && negb (arc_inhib a) then arc_weight a else 0) + weight_at l p)%N.
Proof.
  intros a l p. unfold weight_at. simpl.
  destruct (Nat.eqb (arc_place a) p && negb (arc_inhib a)); simpl; lia.
Qed.

Lemma weight_at_notin : forall l p, ~ In p (map arc_place l) -> weight_at l p = 0%N.
Proof.
  induction l as [|a l IH]; intros p H; [reflexivity|].
  rewrite weight_at_cons. simpl in H.
  destruct (Nat.eqb_spec (arc_place a) p) as [He|Hne]; [tauto|].
  simpl. rewrite IH; tauto.
Qed.

(** With at most one arc per place, enabledness gives enough tokens. *)
Lemma weight_at_le : forall l m p, NoDup (map arc_place l) ->
  (forall a, In a l -> arc_ok m a) -> (weight_at l p <= tokens m p)%N.
Proof.
  induction l as [|a l IH]; intros m p Hnd Hok; [rewrite weight_at_nil; lia|].
  rewrite weight_at_cons. simpl in Hnd. inversion Hnd as [|x y Hni Hnd']; subst.
  destruct (Nat.eqb_spec (arc_place a) p) as [<-|Hne]; simpl.
  - rewrite weight_at_notin by exact Hni.
    specialize (Hok a (or_introl eq_refl)). unfold arc_ok in Hok.
    destruct (arc_inhib a); simpl; lia.
  - specialize (IH m p Hnd' (fun a' Ha => Hok a' (or_intror Ha))). lia.
Qed.

Section Fire.
  Variable net : cnet.

  Lemma consume_loop_ok : forall k a m,
    length m = cn_places net ->
    a + k <= length (cn_invs net) ->
    (forall iv, In iv (slice (cn_invs net) a (a + k)) -> iv_place iv < cn_places net) ->
    NoDup (map arc_place (map inv_arc (slice (cn_invs net) a (a + k)))) ->
    (forall x, In x (map inv_arc (slice (cn_invs net) a (a + k))) -> arc_ok m x) ->
    (forall p, (tokens m p < 2 ^ 32)%N) ->
    exists m', consume_loop net m a k = Ok m' /\ length m' = length m /\
      forall p, p < length m ->
        tokens m' p = (tokens m p - weight_at (map inv_arc (slice (cn_invs net) a (a + k))) p)%N.
  Proof.
    induction k as [|k IH]; intros a m Hm Hlen Hp Hnd Hok Hbd; cbn [consume_loop].
    - exists m. rewrite Nat.add_0_r, slice_nil. split; [reflexivity|]. split; [reflexivity|].
      intros p _. cbn [map]. rewrite weight_at_nil. lia.
    - destruct (nth_error_ex (cn_invs net) (i := a)) as [iv Hiv]; [lia|].
      assert (Hs : slice (cn_invs net) a (a + S k) = iv :: slice (cn_invs net) (S a) (S a + k)).
      { rewrite (@slice_cons _ _ a (a + S k) iv); [|lia|exact Hiv].
        do 2 f_equal; lia. }
      rewrite Hs in *. rewrite (rd_some _ _ Hiv). cbn [bind].
      cbn [map] in Hnd, Hok. inversion Hnd as [|x y Hni Hnd' Heq]; subst.
      assert (Hpl : iv_place iv < cn_places net) by (apply Hp; left; reflexivity).
      assert (Hp' : forall iv0, In iv0 (slice (cn_invs net) (S a) (S a + k)) -> iv_place iv0 < cn_places net)
        by (intros iv0 H0; apply Hp; right; exact H0).
      assert (Hok' : forall x, In x (map inv_arc (slice (cn_invs net) (S a) (S a + k))) -> arc_ok m x)
        by (intros x Hx; apply Hok; right; exact Hx).
      destruct (iv_inhib iv) eqn:Hinh; cbn [negb].
      + destruct (IH (S a) m) as (m' & Heq' & Hl & Hv); auto; try lia.
        exists m'. split; [exact Heq'|]. split; [exact Hl|].
        intros p Hpp. rewrite Hv by exact Hpp. cbn [map]. rewrite weight_at_cons.
        cbn [inv_arc arc_inhib]. rewrite Hinh. rewrite andb_false_r. lia.
      + rewrite (@rd_nth _ m (iv_place iv) 0%N) by lia. cbn [bind].
        fold (tokens m (iv_place iv)).
        rewrite wr_ok by lia. cbn [bind].
        assert (Hge : (iv_tokens iv <= tokens m (iv_place iv))%N).
        { pose proof (Hok _ (or_introl eq_refl)) as H. unfold arc_ok in H. cbn in H.
          rewrite Hinh in H. exact H. }
        assert (Hval : ((tokens m (iv_place iv) + 2 ^ 32 - iv_tokens iv) mod 2 ^ 32 =
                        tokens m (iv_place iv) - iv_tokens iv)%N).
        { replace (tokens m (iv_place iv) + 2 ^ 32 - iv_tokens iv)%N
            with ((tokens m (iv_place iv) - iv_tokens iv) + 1 * 2 ^ 32)%N by lia.
          rewrite N.mod_add by lia. apply N.mod_small.
          specialize (Hbd (iv_place iv)). lia. }
        rewrite Hval.
        set (m1 := upd m (iv_place iv) (tokens m (iv_place iv) - iv_tokens iv)%N).
        assert (Hl1 : length m1 = length m) by apply upd_length.
        assert (Ht1 : forall q, q <> iv_place iv -> tokens m1 q = tokens m q)
          by (intros q Hq; unfold tokens, m1; rewrite nth_upd_neq; congruence).
        assert (Ht2 : tokens m1 (iv_place iv) = (tokens m (iv_place iv) - iv_tokens iv)%N)
          by (unfold tokens, m1; rewrite nth_upd_eq by lia; reflexivity).
        destruct (IH (S a) m1) as (m' & Heq' & Hl & Hv); auto; try lia.
        * intros x Hx. assert (Hxp : arc_place x <> iv_place iv).
          { intros He. apply Hni. cbn [inv_arc arc_place]. rewrite <- He. apply in_map; exact Hx. }
          pose proof (Hok x (or_intror Hx)) as Hox. unfold arc_ok in *. rewrite Ht1 by exact Hxp. exact Hox.
        * intros q. destruct (Nat.eq_dec q (iv_place iv)) as [->|Hq].
          -- rewrite Ht2. specialize (Hbd (iv_place iv)). lia.
          -- rewrite Ht1 by exact Hq. apply Hbd.
        * exists m'. split; [exact Heq'|]. split; [lia|].
          intros p Hpp. rewrite Hv by lia. cbn [map]. rewrite weight_at_cons. cbn [inv_arc arc_place arc_inhib arc_weight].
          rewrite Hinh. cbn [negb]. rewrite andb_true_r.
          destruct (Nat.eqb_spec (iv_place iv) p) as [<-|Hne].
          -- rewrite Ht2. lia.
          -- rewrite Ht1 by congruence. lia.
  Qed.

  Lemma produce_loop_ok : forall k a m,
    length m = cn_places net ->
    a + k <= length (cn_invs net) ->
    (forall iv, In iv (slice (cn_invs net) a (a + k)) -> iv_place iv < cn_places net) ->
    NoDup (map arc_place (map out_arc_of (slice (cn_invs net) a (a + k)))) ->
    let post := map out_arc_of (slice (cn_invs net) a (a + k)) in
    ((exists m', produce_loop net m a k = Ok m' /\ length m' = length m /\
        forall p, p < length m -> tokens m' p = (tokens m p + weight_at post p)%N) /\
     (forall x, In x post -> (tokens m (arc_place x) + arc_weight x < 2 ^ 32 - 1)%N)) \/
    (produce_loop net m a k = Throw /\
     exists x, In x post /\ (2 ^ 32 - 1 <= tokens m (arc_place x) + arc_weight x)%N).
  Proof.
    induction k as [|k IH]; intros a m Hm Hlen Hp Hnd post; cbn [produce_loop].
    - left. subst post. rewrite Nat.add_0_r, slice_nil. split.
      + exists m. split; [reflexivity|]. split; [reflexivity|].
        intros p _. cbn [map]. rewrite weight_at_nil. lia.
      + cbn [map]. intros x [].
    - destruct (nth_error_ex (cn_invs net) (i := a)) as [iv Hiv]; [lia|].
      assert (Hs : slice (cn_invs net) a (a + S k) = iv :: slice (cn_invs net) (S a) (S a + k)).
      { rewrite (@slice_cons _ _ a (a + S k) iv); [|lia|exact Hiv].
        do 2 f_equal; lia. }
      subst post. rewrite Hs in *. rewrite (rd_some _ _ Hiv). cbn [bind].
      cbn [map] in Hnd. inversion Hnd as [|x y Hni Hnd' Heq]; subst.
      assert (Hpl : iv_place iv < cn_places net) by (apply Hp; left; reflexivity).
      rewrite (@rd_nth _ m (iv_place iv) 0%N) by lia. cbn [bind].
      fold (tokens m (iv_place iv)).
      destruct (N.leb_spec (2 ^ 32 - 1) (tokens m (iv_place iv) + iv_tokens iv)) as [Hov|Hok].
      + right. split; [reflexivity|]. exists (out_arc_of iv). split; [left; reflexivity|exact Hov].
      + rewrite wr_ok by lia. cbn [bind].
        set (m1 := upd m (iv_place iv) (tokens m (iv_place iv) + iv_tokens iv)%N).
        assert (Hl1 : length m1 = length m) by apply upd_length.
        assert (Ht1 : forall q, q <> iv_place iv -> tokens m1 q = tokens m q)
          by (intros q Hq; unfold tokens, m1; rewrite nth_upd_neq; congruence).
        assert (Ht2 : tokens m1 (iv_place iv) = (tokens m (iv_place iv) + iv_tokens iv)%N)
          by (unfold tokens, m1; rewrite nth_upd_eq by lia; reflexivity).
        assert (Hp' : forall iv0, In iv0 (slice (cn_invs net) (S a) (S a + k)) -> iv_place iv0 < cn_places net)
          by (intros iv0 H0; apply Hp; right; exact H0).
        assert (Hdiff : forall x, In x (map out_arc_of (slice (cn_invs net) (S a) (S a + k))) ->
                          arc_place x <> iv_place iv).
        { intros x Hx He. apply Hni. cbn [out_arc_of arc_place]. rewrite <- He. apply in_map; exact Hx. }
        destruct (IH (S a) m1) as [((m' & Heq' & Hl & Hv) & Hall)|(Hthrow & x & Hx & Hov)]; auto; try lia.
        * left. split.
          -- exists m'. split; [exact Heq'|]. split; [lia|].
             intros p Hpp. rewrite Hv by lia. cbn [map]. rewrite weight_at_cons.
             cbn [out_arc_of arc_place arc_inhib arc_weight negb]. rewrite andb_true_r.
             destruct (Nat.eqb_spec (iv_place iv) p) as [<-|Hne].
             ++ rewrite Ht2. lia.
             ++ rewrite Ht1 by congruence. lia.
          -- intros x [<-|Hx].
             ++ cbn [out_arc_of arc_place arc_weight]. exact Hok.
             ++ specialize (Hall x Hx). rewrite Ht1 in Hall by (apply Hdiff; exact Hx). exact Hall.
        * right. split; [exact Hthrow|]. exists x. split; [right; exact Hx|].
          rewrite Ht1 in Hov by (apply Hdiff; exact Hx). exact Hov.
  Qed.
End Fire.

(** Every count of the marking fits in a MarkVal (uint32_t). *)
Definition fits32 (m : marking) : Prop := forall p, (tokens m p < 2 ^ 32)%N.

(** Firing [t] would put 2^32-1 or more tokens into a place. *)
Definition overflows (t : trans) (m : marking) : Prop :=
  exists a, In a (tr_post t) /\
    (2 ^ 32 - 1 <= tokens m (arc_place a) - weight_at (tr_pre t) (arc_place a) + arc_weight a)%N.

Lemma fire_ok : forall net m t, layout net -> length m = cn_places net -> fits32 m ->
  t < cn_ntrans net -> enabled (net_trans net t) m ->
  (~ overflows (net_trans net t) m /\ exists m', fire net m t = Ok m' /\ fires (net_trans net t) m m') \/
  (overflows (net_trans net t) m /\ fire net m t = Throw).
Proof.
  intros net m t L Hm Hbd Ht Hen.
  destruct (ly_trans L Ht) as (a & b & Ha & Hb & H1 & H2 & Heq).
  destruct (wf_net_trans L Ht) as (Hpre & Hpost & Hnd1 & Hnd2).
  rewrite Heq in Hnd1, Hnd2, Hen; cbn [tr_pre tr_post] in *.
  unfold fire, consume_preset, produce_postset.
  rewrite (rd_some _ _ Ha); cbn [bind]. rewrite (rd_some _ _ Hb); cbn [bind].
  destruct (@consume_loop_ok net (snd a - fst a) (fst a) m) as (m1 & Hc & Hl1 & Hv1);
    try (replace (fst a + (snd a - fst a)) with (snd a) by lia); auto; try lia.
  { exact (pre_places L Ht Ha). }
  replace (fst a + (snd a - fst a)) with (snd a) in Hv1 by lia.
  rewrite Hc; cbn [bind].
  destruct (@produce_loop_ok net (fst b - snd a) (snd a) m1)
    as [((m' & Hpr & Hl & Hv) & Hall)|(Hthrow & x & Hx & Hov)];
    try (replace (snd a + (fst b - snd a)) with (fst b) by lia); auto; try lia.
  { exact (post_places L Ht Ha Hb). }
  - replace (snd a + (fst b - snd a)) with (fst b) in * by lia.
    left. split.
    + intros (x & Hx & Hov). rewrite Heq in Hx, Hov; cbn [tr_pre tr_post] in *.
      specialize (Hall x Hx). rewrite Hv1 in Hall; [lia|].
      apply in_map_iff in Hx. destruct Hx as (iv & <- & Hiv).
      apply (post_places L Ht Ha Hb) in Hiv. cbn [out_arc_of arc_place]. lia.
    + exists m'. split; [exact Hpr|]. rewrite Heq. split; [exact Hen|]. split; [lia|].
      intros p Hpp. cbn [tr_pre tr_post]. split.
      * apply weight_at_le; [exact Hnd1|exact Hen].
      * rewrite Hv by lia. rewrite Hv1 by lia. reflexivity.
  - replace (snd a + (fst b - snd a)) with (fst b) in * by lia.
    right. split; [|exact Hthrow]. exists x. rewrite Heq; cbn [tr_pre tr_post]. split; [exact Hx|].
    rewrite Hv1 in Hov; [exact Hov|].
    apply in_map_iff in Hx. destruct Hx as (iv & <- & Hiv).
    apply (post_places L Ht Ha Hb) in Hiv. cbn [out_arc_of arc_place]. lia.
Qed.

Lemma fires_det : forall t m m1 m2, fires t m m1 -> fires t m m2 -> m1 = m2.
Proof.
  intros t m m1 m2 (_ & Hl1 & H1) (_ & Hl2 & H2).
  apply (list_eq_nth 0%N); [lia|]. intros i Hi.
  destruct (H1 i ltac:(lia)) as (_ & E1). destruct (H2 i ltac:(lia)) as (_ & E2).
  unfold tokens in *. congruence.
Qed.

Lemma fire_all_spec : forall net m l, layout net -> length m = cn_places net -> fits32 m ->
  (forall t, In t l -> t < cn_ntrans net /\ enabled (net_trans net t) m) ->
  (exists r, fire_all net m l = Ok r /\ map fst r = l /\
     (forall t m', In (t, m') r -> fires (net_trans net t) m m') /\
     (forall t, In t l -> ~ overflows (net_trans net t) m)) \/
  (fire_all net m l = Throw /\ exists t, In t l /\ overflows (net_trans net t) m).
Proof.
  intros net m l L Hm Hbd; induction l as [|t l IH]; intros Hl; cbn [fire_all].
  - left. exists []. repeat split; simpl; intros; contradiction.
  - destruct (Hl t (or_introl eq_refl)) as (Ht & Hen).
    destruct (fire_ok L Hm Hbd Ht Hen) as [(Hno & m' & -> & Hf)|(Hov & ->)]; cbn [bind].
    + destruct IH as [(r & -> & Hr & Hall & Hnov)|(-> & t' & Hin & Hov)].
      * intros t' Ht'; apply Hl; right; exact Ht'.
      * left. cbn [bind]. exists ((t, m') :: r). split; [reflexivity|]. split; [simpl; congruence|]. split.
        -- intros t0 m0 [E|E]; [injection E as <- <-; exact Hf|apply Hall; exact E].
        -- intros t0 [<-|E]; [exact Hno|apply Hnov; exact E].
      * right. split; [reflexivity|]. exists t'. split; [right; exact Hin|exact Hov].
    + right. split; [reflexivity|]. exists t. split; [left; reflexivity|exact Hov].
Qed.

Lemma successors_spec : forall net m, layout net -> length m = cn_places net -> fits32 m ->
  (exists r, successors net m = Ok r /\
     NoDup (map fst r) /\
     forall t m', In (t, m') r <-> step (to_pnet net) m t m') \/
  (successors net m = Throw /\
     exists t tr, nth_error (pn_trans (to_pnet net)) t = Some tr /\ enabled tr m /\ overflows tr m).
Proof.
  intros net m L Hm Hbd.
  rewrite successors_ok by assumption.
  set (l := filter _ _).
  assert (Hl : forall t, In t l <-> t < cn_ntrans net /\ enabled (net_trans net t) m).
  { intros t. unfold l. rewrite filter_In, in_seq, enabledb_spec. intuition lia. }
  destruct (@fire_all_spec net m l L Hm Hbd) as [(r & -> & Hr & Hall & _)|(-> & t & Hin & Hov)].
  - intros t Ht; apply Hl; exact Ht.
  - left. exists r. split; [reflexivity|]. split.
    + rewrite Hr. unfold l. apply NoDup_filter, seq_NoDup.
    + intros t m'. split.
      * intros H. assert (Hin : In t l) by (rewrite <- Hr; change t with (fst (t, m')); apply in_map; exact H).
        apply Hl in Hin. destruct Hin as (Ht & Hen).
        exists (net_trans net t). split; [apply net_trans_in; exact Ht|]. apply Hall; exact H.
      * intros (tr & Hn & Hf). apply net_trans_inv in Hn. destruct Hn as (Ht & ->).
        assert (Hin : In t l) by (apply Hl; split; [exact Ht|exact (proj1 Hf)]).
        rewrite <- Hr in Hin. apply in_map_iff in Hin. destruct Hin as ((t1 & m1) & E & H1).
        simpl in E; subst t1. rewrite (fires_det Hf (Hall _ _ H1)). exact H1.
  - right. split; [reflexivity|]. apply Hl in Hin. destruct Hin as (Ht & Hen).
    exists t, (net_trans net t). repeat split; auto. apply net_trans_in; exact Ht.
Qed.

(** Deadlock test. *)
Lemma existsb_seq_app : forall (f : nat -> bool) a k1 k2,
  existsb f (seq a (k1 + k2)) = existsb f (seq a k1) || existsb f (seq (a + k1) k2).
Proof. intros f a k1 k2. rewrite seq_app, existsb_app. reflexivity. Qed.

Lemma existsb_none : forall {A} (f : A -> bool) l, (forall x, In x l -> f x = false) -> existsb f l = false.
Proof.
  intros A f; induction l as [|x l IH]; intros H; simpl; [reflexivity|].
  rewrite (H x) by (left; reflexivity). apply IH; intros y Hy; apply H; right; exact Hy.
Qed.

Lemma dead_places_ok : forall net m, layout net -> length m = cn_places net ->
  forall k p, p + k = cn_places net ->
  dead_places net m p k =
  Ok (negb (existsb (fun i => enabledb (net_trans net i) m)
        (seq (gptr net p) (cn_ntrans net - gptr net p)))).
Proof.
  intros net m L Hm; induction k as [|k IH]; intros p Hk; cbn [dead_places].
  - assert (p = cn_places net) by lia; subst p. rewrite (gptr_last L), Nat.sub_diag. reflexivity.
  - specialize (IH (S p) ltac:(lia)).
    pose proof (@gptr_mono1 _ L p ltac:(lia)) as Hmono.
    pose proof (@gptr_bound _ L (S p) ltac:(lia)) as Hb.
    replace (cn_ntrans net - gptr net p) with
      ((gptr net (S p) - gptr net p) + (cn_ntrans net - gptr net (S p))) by lia.
    rewrite existsb_seq_app. replace (gptr net p + (gptr net (S p) - gptr net p)) with (gptr net (S p)) by lia.
    assert (Hgo : exists go, (if p =? 0 then Ok true else v <- rd m p;; Ok (0 <? v)%N) = Ok go /\
                 (go = false -> 0 < p /\ tokens m p = 0%N)).
    { destruct (Nat.eqb_spec p 0) as [->|Hne].
      - exists true. split; auto; discriminate.
      - rewrite (@rd_nth _ m p 0%N) by lia. cbn [bind]. fold (tokens m p).
        exists (0 <? tokens m p)%N. destruct (N.ltb_spec 0 (tokens m p)); split; auto; try discriminate; lia. }
    destruct Hgo as (go & -> & Hgf); cbn [bind].
    destruct go.
    + rewrite (@rd_some _ _ _ _ (@gptr_rd net L p ltac:(lia))); cbn [bind].
      rewrite (@rd_some _ _ _ _ (@gptr_rd net L (S p) ltac:(lia))); cbn [bind].
      destruct (Nat.ltb_spec (gptr net (S p)) (gptr net p)); [lia|].
      rewrite dead_trans_ok by (auto; lia). cbn [bind].
      destruct (existsb _ (seq (gptr net p) _)); [reflexivity|exact IH].
    + destruct (Hgf eq_refl) as (Hp0 & Hz).
      rewrite (@existsb_none _ _ (seq (gptr net p) (gptr net (S p) - gptr net p))).
      * exact IH.
      * intros i Hi. apply in_seq in Hi. eapply (@group_empty net L m Hm); eauto; lia.
Qed.

Lemma deadlocked_spec : forall net m, layout net -> 0 < cn_places net -> length m = cn_places net ->
  exists b, deadlocked net m = Ok b /\ (b = true <-> dead (to_pnet net) m).
Proof.
  intros net m L Hp Hm. unfold deadlocked.
  destruct (Nat.eqb_spec (cn_places net) 0); [lia|].
  rewrite (@dead_places_ok net m L Hm) by lia.
  eexists; split; [reflexivity|].
  rewrite (gptr_0 L), Nat.sub_0_r, negb_true_iff. split.
  - intros H t tr Ht Hen. apply net_trans_inv in Ht. destruct Ht as (Ht & ->).
    apply enabledb_spec in Hen.
    assert (existsb (fun i => enabledb (net_trans net i) m) (seq 0 (cn_ntrans net)) = true); [|congruence].
    apply existsb_exists. exists t. split; [apply in_seq; lia|exact Hen].
  - intros H. apply existsb_none. intros i Hi. apply in_seq in Hi.
    destruct (enabledb (net_trans net i) m) eqn:E; [|reflexivity].
    apply enabledb_spec in E. exfalso. apply (H i (net_trans net i)); [apply net_trans_in; lia|exact E].
Qed.

Lemma fireable_spec : forall net m t tr, layout net -> length m = cn_places net ->
  nth_error (pn_trans (to_pnet net)) t = Some tr ->
  exists b, fireable net m t = Ok b /\ (b = true <-> enabled tr m).
Proof.
  intros net m t tr L Hm Ht. apply net_trans_inv in Ht. destruct Ht as (Ht & ->).
  rewrite fireable_ok by assumption. eexists; split; [reflexivity|]. apply enabledb_spec.
Qed.

(** inArc / outArc. *)
Lemma in_arc_loop_ok : forall net p k a, a + k <= length (cn_invs net) ->
  NoDup (map arc_place (map inv_arc (slice (cn_invs net) a (a + k)))) ->
  in_arc_loop net p a k = Ok (weight_at (map inv_arc (slice (cn_invs net) a (a + k))) p).
Proof.
  intros net p; induction k as [|k IH]; intros a Hlen Hnd; cbn [in_arc_loop].
  - rewrite Nat.add_0_r, slice_nil. reflexivity.
  - destruct (nth_error_ex (cn_invs net) (i := a)) as [iv Hiv]; [lia|].
    assert (Hs : slice (cn_invs net) a (a + S k) = iv :: slice (cn_invs net) (S a) (S a + k)).
    { rewrite (@slice_cons _ _ a (a + S k) iv); [|lia|exact Hiv].
      do 2 f_equal; lia. }
    rewrite Hs in *. rewrite (rd_some _ _ Hiv). cbn [bind map].
    cbn [map] in Hnd. inversion Hnd as [|x y Hni Hnd' Heq]; subst.
    rewrite weight_at_cons. cbn [inv_arc arc_place arc_inhib arc_weight].
    destruct (Nat.eqb_spec (iv_place iv) p) as [He|Hne].
    + rewrite weight_at_notin by (rewrite <- He; exact Hni).
      destruct (iv_inhib iv); simpl; f_equal; lia.
    + simpl andb. rewrite IH by (auto; lia). reflexivity.
Qed.

Lemma out_arc_loop_ok : forall net p k a, a + k <= length (cn_invs net) ->
  NoDup (map arc_place (map out_arc_of (slice (cn_invs net) a (a + k)))) ->
  out_arc_loop net p a k = Ok (weight_at (map out_arc_of (slice (cn_invs net) a (a + k))) p).
Proof.
  intros net p; induction k as [|k IH]; intros a Hlen Hnd; cbn [out_arc_loop].
  - rewrite Nat.add_0_r, slice_nil. reflexivity.
  - destruct (nth_error_ex (cn_invs net) (i := a)) as [iv Hiv]; [lia|].
    assert (Hs : slice (cn_invs net) a (a + S k) = iv :: slice (cn_invs net) (S a) (S a + k)).
    { rewrite (@slice_cons _ _ a (a + S k) iv); [|lia|exact Hiv].
      do 2 f_equal; lia. }
    rewrite Hs in *. rewrite (rd_some _ _ Hiv). cbn [bind map].
    cbn [map] in Hnd. inversion Hnd as [|x y Hni Hnd' Heq]; subst.
    rewrite weight_at_cons. cbn [out_arc_of arc_place arc_inhib arc_weight negb].
    destruct (Nat.eqb_spec (iv_place iv) p) as [He|Hne].
    + rewrite weight_at_notin by (rewrite <- He; exact Hni).
      simpl; f_equal; lia.
    + simpl andb. rewrite IH by (auto; lia). reflexivity.
Qed.

Lemma in_arc_spec : forall net p t tr, layout net ->
  nth_error (pn_trans (to_pnet net)) t = Some tr ->
  in_arc net p t = Ok (weight_at (tr_pre tr) p) /\ out_arc net t p = Ok (weight_at (tr_post tr) p).
Proof.
  intros net p t tr L Ht. apply net_trans_inv in Ht. destruct Ht as (Ht & ->).
  destruct (ly_trans L Ht) as (a & b & Ha & Hb & H1 & H2 & Heq).
  destruct (wf_net_trans L Ht) as (_ & _ & Hnd1 & Hnd2). rewrite Heq in *; cbn [tr_pre tr_post] in *.
  unfold in_arc, out_arc. rewrite (rd_some _ _ Ha); cbn [bind]. rewrite (rd_some _ _ Hb); cbn [bind].
  split.
  - rewrite in_arc_loop_ok; replace (fst a + (snd a - fst a)) with (snd a) by lia; auto; lia.
  - rewrite out_arc_loop_ok; replace (snd a + (fst b - snd a)) with (fst b) by lia; auto; lia.
Qed.
