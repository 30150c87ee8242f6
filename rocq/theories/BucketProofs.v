(** Invariant of linked_bucket_t over all interleavings. *)
From Verif Require Import Base BaseLemmas BucketModel.

Lemma nth_upd_eq : forall A (l : list A) i x, i < length l -> nth_error (upd l i x) i = Some x.
Proof. induction l as [|y l IH]; intros [|i] x H; cbn in *; try lia; auto. apply IH. lia. Qed.
Lemma nth_upd_ne : forall A (l : list A) i j x, i <> j -> nth_error (upd l i x) j = nth_error l j.
Proof. induction l as [|y l IH]; intros [|i] [|j] x H; cbn; auto; try lia. Qed.
Lemma len_upd : forall A (l : list A) i x, length (upd l i x) = length l.
Proof. induction l as [|y l IH]; intros [|i] x; cbn; auto. Qed.
Lemma wr_ok : forall A (l : list A) i x, i < length l -> wr l i x = Ok (upd l i x).
Proof. intros A l i x H. unfold wr. destruct (Nat.ltb_spec i (length l)); [reflexivity|lia]. Qed.
Lemma rd_ok : forall A (l : list A) i x, nth_error l i = Some x -> rd l i = Ok x.
Proof. intros A l i x H. unfold rd. rewrite H. reflexivity. Qed.
Lemma nth_lt : forall A (l : list A) i x, nth_error l i = Some x -> i < length l.
Proof. intros A l i x H. apply nth_error_Some. congruence. Qed.

Lemma NoDup_app_intro : forall A (l r : list A), NoDup l -> NoDup r -> (forall x, In x l -> ~ In x r) -> NoDup (l ++ r).
Proof.
  induction l as [|x l IH]; intros r Hl Hr H; cbn [app]; [exact Hr|]. inversion Hl as [|? ? Hx Hl']; subst. constructor.
  - intros Hi. apply in_app_or in Hi. destruct Hi as [Hi|Hi]; [contradiction|]. apply (H x); [left; reflexivity|exact Hi].
  - apply IH; auto. intros y Hy. apply H. right. exact Hy.
Qed.

Section Bucket.
  Variable C : nat.
  Hypothesis HC : 0 < C.

  Definition own (t : lb_thread) (b : nat) : Prop :=
    th_next t = Some b \/ exists n tmp, th_pc t = PCas n b tmp.
  Definition chain_ok (h : list bucket) (ch : list nat) : Prop :=
    nth_error ch 0 = Some 0 /\ NoDup ch /\
    forall j b, nth_error ch j = Some b -> exists k, nth_error h b = Some k /\
      bk_off k = j * C /\ bk_next k = nth_error ch (S j) /\ bk_cnt k <= C.
  Definition pc_ok (h : list bucket) (ix : nat) (ch : list nat) (t : lb_thread) : Prop :=
    match th_pc t with
    | PIdle => True
    | PCas n nx tmp =>
      (exists j x, nth_error ch j = Some n /\ nth_error h nx = Some x /\ bk_off x = S j * C /\ bk_next x = None /\ bk_cnt x = 0) /\
      ~ In nx ch /\ (tmp = None \/ tmp = Some n)
    | PIdx b j id => th_next t = Some b /\ (exists k, nth_error h b = Some k /\ bk_off k = j * (C * C) + id /\ bk_cnt k < C) /\ j < ix
    | PExt b j id => th_next t = Some b /\ (exists k, nth_error h b = Some k /\ bk_off k = j * (C * C) + id /\ bk_cnt k < C) /\ j < ix /\ C * C <= id
    | PRet => exists b k, th_next t = Some b /\ nth_error h b = Some k /\ bk_cnt k < C
    end.
  Definition thread_ok (h : list bucket) (ix : nat) (ch : list nat) (t : lb_thread) : Prop :=
    (forall b, th_next t = Some b -> In b ch) /\ pc_ok h ix ch t.
  Definition threads_ok (h : list bucket) (ix : nat) (ch : list nat) (ts : list lb_thread) : Prop :=
    (forall i t, nth_error ts i = Some t -> thread_ok h ix ch t) /\
    (forall i i' t t' b, nth_error ts i = Some t -> nth_error ts i' = Some t' -> own t b -> own t' b -> i = i').
  Definition index_ok (h : list bucket) (ch : list nat) (ix : list (list (option nat))) : Prop :=
    0 < length ix /\ forall j blk, nth_error ix j = Some blk -> length blk = C /\
      forall i b, nth_error blk i = Some (Some b) -> In b ch /\ exists k, nth_error h b = Some k /\ bk_off k = j * (C * C) + i * C.
  Definition returned_ok (h : list bucket) (ch : list nat) (r : list nat) : Prop :=
    NoDup r /\ forall i, In i r -> exists j b k, nth_error ch j = Some b /\ nth_error h b = Some k /\ j * C <= i < j * C + bk_cnt k.
  Definition Inv (ch : list nat) (s : lb) : Prop :=
    chain_ok (lb_heap s) ch /\ threads_ok (lb_heap s) (length (lb_index s)) ch (lb_threads s) /\
    index_ok (lb_heap s) ch (lb_index s) /\ returned_ok (lb_heap s) ch (lb_returned s).

  Lemma in_chain_heap : forall h ch b, chain_ok h ch -> In b ch -> exists j k, nth_error ch j = Some b /\ nth_error h b = Some k /\
    bk_off k = j * C /\ bk_next k = nth_error ch (S j) /\ bk_cnt k <= C.
  Proof. intros h ch b (_ & _ & H) Hb. apply In_nth_error in Hb. destruct Hb as (j & Hj). destruct (H j b Hj) as (k & Hk). exists j, k. tauto. Qed.
  Lemma own_heap : forall h ix ch t b, chain_ok h ch -> thread_ok h ix ch t -> own t b -> exists k, nth_error h b = Some k.
  Proof.
    intros h ix ch t b Hc (H1 & H2) [H|(n & tmp & H)].
    - destruct (in_chain_heap _ _ _ Hc (H1 b H)) as (j & k & _ & Hk & _). eauto.
    - unfold pc_ok in H2. rewrite H in H2. destruct H2 as ((j & x & _ & Hx & _) & _). eauto.
  Qed.
  (** threads other than the one that moves *)
  Lemma thread_frame : forall h ix ch h' ix' ch' t,
    thread_ok h ix ch t -> ix <= ix' ->
    (exists e, ch' = ch ++ e /\ forall b, own t b -> ~ In b ch -> ~ In b e) ->
    (forall b k, own t b -> nth_error h b = Some k -> exists k', nth_error h' b = Some k' /\ bk_off k' = bk_off k /\ bk_cnt k' = bk_cnt k /\
       (~ In b ch -> bk_next k' = bk_next k)) ->
    thread_ok h' ix' ch' t.
  Proof.
    intros h ix ch h' ix' ch' t (H1 & H2) Hix (e & -> & He) Hf. split; [intros b Hb; apply in_or_app; left; apply H1; exact Hb|].
    unfold pc_ok in *. destruct (th_pc t) as [|n nx tmp|b j id|b j id|] eqn:Ep; auto.
    - destruct H2 as ((j & x & Hn & Hx & E1 & E2 & E3) & Hnin & Ht).
      assert (Ho : own t nx) by (right; eauto). destruct (Hf nx x Ho Hx) as (x' & Hx' & F1 & F2 & F3).
      split; [|split; [|exact Ht]].
      + exists j, x'. split; [rewrite nth_error_app1; [exact Hn|eapply nth_lt; eauto]|]. split; [exact Hx'|]. rewrite F1, F2, F3 by exact Hnin. auto.
      + intros Hin. apply in_app_or in Hin. destruct Hin as [Hin|Hin]; [contradiction|]. exact (He nx Ho Hnin Hin).
    - destruct H2 as (Hb & (k & Hk & E1 & E2) & Hj). split; [exact Hb|]. destruct (Hf b k (or_introl Hb) Hk) as (k' & Hk' & F1 & F2 & _).
      split; [|lia]. exists k'. rewrite F1, F2. auto.
    - destruct H2 as (Hb & (k & Hk & E1 & E2) & Hj & Hid). split; [exact Hb|]. destruct (Hf b k (or_introl Hb) Hk) as (k' & Hk' & F1 & F2 & _).
      split; [|split; [lia|exact Hid]]. exists k'. rewrite F1, F2. auto.
    - destruct H2 as (b & k & Hb & Hk & E). destruct (Hf b k (or_introl Hb) Hk) as (k' & Hk' & F1 & F2 & _). exists b, k'. rewrite F2. auto.
  Qed.
  (** the moving thread is [th] *)
  Lemma threads_move : forall h ix ch h' ix' ch' ts th t t',
    threads_ok h ix ch ts -> nth_error ts th = Some t -> thread_ok h' ix' ch' t' ->
    ix <= ix' ->
    (exists e, ch' = ch ++ e /\ forall i u b, i <> th -> nth_error ts i = Some u -> own u b -> ~ In b ch -> ~ In b e) ->
    (forall i u b k, i <> th -> nth_error ts i = Some u -> own u b -> nth_error h b = Some k -> exists k', nth_error h' b = Some k' /\ bk_off k' = bk_off k /\ bk_cnt k' = bk_cnt k /\
       (~ In b ch -> bk_next k' = bk_next k)) ->
    (forall b, own t' b -> own t b \/ forall i u, nth_error ts i = Some u -> ~ own u b) ->
    threads_ok h' ix' ch' (upd ts th t').
  Proof.
    intros h ix ch h' ix' ch' ts th t t' (H1 & H2) Ht Ht' Hix (e & -> & He) Hf Ho. assert (Hlt := nth_lt _ _ _ _ Ht). split.
    - intros i u Hu. destruct (Nat.eq_dec i th) as [->|Hne].
      + rewrite nth_upd_eq in Hu by exact Hlt. injection Hu as <-. exact Ht'.
      + rewrite nth_upd_ne in Hu by auto. eapply thread_frame; [apply (H1 i u Hu)|exact Hix|exists e; split; [reflexivity|]|].
        * intros b Hb Hnin. eapply He; eauto.
        * intros b k Hb Hk. eapply Hf; eauto.
    - assert (X : forall i u b, i <> th -> nth_error ts i = Some u -> own u b -> own t' b -> False).
      { intros i u b Hne Hu Hb Hb'. destruct (Ho b Hb') as [G|G]; [|exact (G i u Hu Hb)]. apply Hne. exact (H2 i th u t b Hu Ht Hb G). }
      intros i i' u u' b Hu Hu' Hb Hb'. destruct (Nat.eq_dec i th) as [->|Hne], (Nat.eq_dec i' th) as [->|Hne']; auto.
      + rewrite nth_upd_eq in Hu by exact Hlt. injection Hu as <-. rewrite nth_upd_ne in Hu' by auto. exfalso. eapply X; eauto.
      + rewrite nth_upd_eq in Hu' by exact Hlt. injection Hu' as <-. rewrite nth_upd_ne in Hu by auto. exfalso. eapply X; eauto.
      + rewrite nth_upd_ne in Hu, Hu' by auto. eapply H2; eauto.
  Qed.
  (** only the thread changes *)
  Lemma local_move : forall s ch th t t', Inv ch s -> nth_error (lb_threads s) th = Some t ->
    thread_ok (lb_heap s) (length (lb_index s)) ch t' -> (forall b, own t' b -> own t b) -> Inv ch (set_pc s th t').
  Proof.
    intros s ch th t t' (I1 & I2 & I3 & I4) Ht Ht' Ho. split; [exact I1|]. split; [|split; [exact I3|exact I4]].
    cbn [set_pc lb_heap lb_index lb_threads].
    eapply threads_move; [exact I2|exact Ht|exact Ht'|apply le_n| | |intros b Hb; left; apply Ho; exact Hb].
    - exists []. rewrite app_nil_r. split; [reflexivity|]. intros i u b _ _ _ _ [].
    - intros i u b k _ _ _ Hk. exists k. auto.
  Qed.
  Lemma index_frame : forall h ch ix h' e, index_ok h ch ix ->
    (forall b k, In b ch -> nth_error h b = Some k -> exists k', nth_error h' b = Some k' /\ bk_off k' = bk_off k) ->
    index_ok h' (ch ++ e) ix.
  Proof.
    intros h ch ix h' e (H1 & H2) Hf. split; [exact H1|]. intros j blk Hj. destruct (H2 j blk Hj) as (Hl & Hb). split; [exact Hl|].
    intros i b Hi. destruct (Hb i b Hi) as (Hin & k & Hk & E). split; [apply in_or_app; left; exact Hin|].
    destruct (Hf b k Hin Hk) as (k' & Hk' & F). exists k'. rewrite F. auto.
  Qed.
  Lemma returned_frame : forall h ch r h' e, returned_ok h ch r ->
    (forall b k, In b ch -> nth_error h b = Some k -> exists k', nth_error h' b = Some k' /\ bk_cnt k <= bk_cnt k') ->
    returned_ok h' (ch ++ e) r.
  Proof.
    intros h ch r h' e (H1 & H2) Hf. split; [exact H1|]. intros i Hi. destruct (H2 i Hi) as (j & b & k & Hj & Hk & Hr).
    destruct (Hf b k) as (k' & Hk' & F); [eapply nth_error_In; eauto|exact Hk|].
    exists j, b, k'. split; [rewrite nth_error_app1; [exact Hj|eapply nth_lt; eauto]|]. split; [exact Hk'|lia].
  Qed.

  Lemma step_inv : forall ch s sp th, Inv ch s -> th < length (lb_threads s) ->
    exists s' e, lb_step C sp s th = Ok s' /\ Inv (ch ++ e) s' /\ length (lb_threads s') = length (lb_threads s).
  Proof.
    intros ch s sp th I Hth. destruct (nth_error (lb_threads s) th) as [t|] eqn:Et; [|apply nth_error_None in Et; lia].
    assert (I0 := I). destruct I as (I1 & I2 & I3 & I4). assert (Htok := proj1 I2 th t Et). destruct Htok as (Hnx & Hpc). unfold lb_step. rewrite (rd_ok _ _ _ _ Et). cbn [bind].
    assert (Loc : forall t', thread_ok (lb_heap s) (length (lb_index s)) ch t' -> (forall b, own t' b -> own t b) ->
      exists s' e, @Ok lb (set_pc s th t') = Ok s' /\ Inv (ch ++ e) s' /\ length (lb_threads s') = length (lb_threads s)).
    { intros t' H1 H2. exists (set_pc s th t'), []. rewrite app_nil_r. split; [reflexivity|]. split; [eapply local_move; eauto|].
      cbn [set_pc lb_threads]. apply len_upd. }
    unfold pc_ok in Hpc. destruct (th_pc t) as [|n nx tmp|b j id|b j id|] eqn:Ep.
    - (* Idle *)
      assert (Hn : exists j k, nth_error ch j = Some (match th_next t with None => 0 | Some b => b end) /\
         nth_error (lb_heap s) (match th_next t with None => 0 | Some b => b end) = Some k /\ bk_off k = j * C /\ bk_cnt k <= C).
      { destruct (th_next t) as [b|] eqn:En.
        - destruct (in_chain_heap _ _ _ I1 (Hnx b eq_refl)) as (j & k & G1 & G2 & G3 & _ & G4). exists j, k. auto.
        - destruct I1 as (C1 & C2 & C3). destruct (C3 0 0 C1) as (k & G1 & G2 & _ & G3). exists 0, k. auto. }
      destruct Hn as (j & k & Hj & Hk & Hoff & Hcnt).
      assert (Hf : exists full, match th_next t with None => Ok true | Some b => k <- rd (lb_heap s) b ;; Ok (Nat.eqb (bk_cnt k) C) end = Ok full /\
         (full = false -> th_next t <> None /\ bk_cnt k < C)).
      { destruct (th_next t) as [b|]; [|exists true; split; [reflexivity|discriminate]]. rewrite (rd_ok _ _ _ _ Hk). cbn [bind].
        eexists. split; [reflexivity|]. intros E. apply Nat.eqb_neq in E. split; [discriminate|lia]. }
      destruct Hf as (full & -> & Hful). cbn [bind]. destruct full.
      + rewrite (rd_ok _ _ _ _ Hk). cbn [bind]. eexists. exists []. rewrite app_nil_r. split; [reflexivity|].
        split; [|cbn [lb_threads]; apply len_upd].
        set (nb := mkBucket None (bk_off k + C) 0). set (h' := lb_heap s ++ [nb]).
        assert (Hh : forall b x, nth_error (lb_heap s) b = Some x -> nth_error h' b = Some x).
        { intros b x Hb. unfold h'. rewrite nth_error_app1; [exact Hb|eapply nth_lt; eauto]. }
        assert (Hnew : nth_error h' (length (lb_heap s)) = Some nb) by (unfold h'; rewrite nth_error_app2, Nat.sub_diag by lia; reflexivity).
        assert (Hfresh : forall i u, nth_error (lb_threads s) i = Some u -> ~ own u (length (lb_heap s))).
        { intros i u Hu Ho. destruct (own_heap _ _ _ _ _ I1 (proj1 I2 i u Hu) Ho) as (x & Hx). apply nth_lt in Hx. lia. }
        assert (Hnin : ~ In (length (lb_heap s)) ch).
        { intros Hin. destruct (in_chain_heap _ _ _ I1 Hin) as (? & x & _ & Hx & _). apply nth_lt in Hx. lia. }
        split; [|split; [|split]]; cbn [lb_heap lb_index lb_threads lb_returned].
        * destruct I1 as (C1 & C2 & C3). split; [exact C1|]. split; [exact C2|]. intros i b Hb. destruct (C3 i b Hb) as (x & Hx & G). exists x. split; [apply Hh; exact Hx|exact G].
        * eapply threads_move; [exact I2|exact Et| |apply le_n|exists []; rewrite app_nil_r; split; [reflexivity|intros ? ? ? _ _ _ _ []]| |].
          -- split; [exact Hnx|]. unfold pc_ok. cbn [th_pc]. split; [|split; [exact Hnin|left; reflexivity]].
             exists j, nb. split; [exact Hj|]. split; [exact Hnew|]. cbn [nb bk_off bk_next bk_cnt]. split; [lia|auto].
          -- intros i u b x _ _ _ Hx. exists x. split; [apply Hh; exact Hx|auto].
          -- intros b [Hb|(? & ? & Hb)]; [left; left; exact Hb|]. injection Hb as <- <- <-. right. exact Hfresh.
        * rewrite <- (app_nil_r ch). eapply index_frame; [exact I3|]. intros b x _ Hx. exists x. split; [apply Hh; exact Hx|reflexivity].
        * rewrite <- (app_nil_r ch). eapply returned_frame; [exact I4|]. intros b x _ Hx. exists x. split; [apply Hh; exact Hx|lia].
      + apply Loc.
        * split; [exact Hnx|]. cbn [pc_ok th_pc]. unfold pc_ok. cbn [th_pc th_next]. destruct (Hful eq_refl) as (F1 & F2).
          destruct (th_next t) as [b|]; [|congruence]. exists b, k. auto.
        * intros b [Hb|(? & ? & Hb)]; [left; exact Hb|discriminate Hb].
    - (* Cas *)
      destruct Hpc as ((j & x & Hn & Hx & E1 & E2 & E3) & Hnin & Htmp).
      assert (I1' := I1). destruct I1' as (C1 & C2 & C3). destruct (C3 j n Hn) as (k & Hk & Hoff & Hnext & Hcnt).
      rewrite (rd_ok _ _ _ _ Hk). cbn [bind]. rewrite (rd_ok _ _ _ _ Hx). cbn [bind].
      assert (Hnnx : n <> nx) by (intros ->; apply Hnin; eapply nth_error_In; eauto).
      destruct (match bk_next k, tmp with None, None => true | Some a, Some b => Nat.eqb a b | _, _ => false end && negb sp) eqn:Eq.
      + apply andb_true_iff in Eq. destruct Eq as (Eq & _).
        assert (Hlast : nth_error ch (S j) = None).
        { rewrite <- Hnext. destruct (bk_next k) as [a|] eqn:Ea; [|reflexivity]. exfalso. destruct tmp as [b|]; [|discriminate].
          apply Nat.eqb_eq in Eq. subst b. destruct Htmp as [Htmp|Htmp]; [discriminate|]. injection Htmp as ->.
          symmetry in Hnext. assert (j = S j); [|lia]. apply (proj1 (NoDup_nth_error ch) C2); [eapply nth_lt; eauto|congruence]. }
        assert (Hlen : length ch = S j). { assert (j < length ch) by (eapply nth_lt; eauto). apply nth_error_None in Hlast. lia. }
        rewrite wr_ok by (eapply nth_lt; eauto). cbn [bind]. eexists. exists [nx]. split; [reflexivity|].
        split; [|cbn [lb_threads]; apply len_upd].
        set (h' := upd (lb_heap s) n (mkBucket (Some nx) (bk_off k) (bk_cnt k))).
        assert (Hh : forall b y, b <> n -> nth_error (lb_heap s) b = Some y -> nth_error h' b = Some y).
        { intros b y Hb Hy. unfold h'. rewrite nth_upd_ne by auto. exact Hy. }
        assert (Hhn : nth_error h' n = Some (mkBucket (Some nx) (bk_off k) (bk_cnt k))) by (apply nth_upd_eq; eapply nth_lt; eauto).
        split; [|split; [|split]]; cbn [lb_heap lb_index lb_threads lb_returned].
        * split; [rewrite nth_error_app1 by lia; exact C1|]. split.
          { apply NoDup_app_intro; [exact C2|repeat constructor; intros []|]. intros y Hy [->|[]]. contradiction. }
          intros i b Hb. destruct (Nat.lt_ge_cases i (length ch)) as [Hi|Hi].
          -- rewrite nth_error_app1 in Hb by exact Hi. destruct (C3 i b Hb) as (y & Hy & G1 & G2 & G3).
             destruct (Nat.eq_dec b n) as [->|Hbn].
             ++ assert (i = j) by (apply (proj1 (NoDup_nth_error ch) C2); [exact Hi|congruence]). subst i.
                eexists. split; [exact Hhn|]. cbn [bk_off bk_next bk_cnt]. split; [exact Hoff|]. split; [|exact Hcnt].
                rewrite nth_error_app2 by lia. replace (S j - length ch) with 0 by lia. reflexivity.
             ++ exists y. split; [apply Hh; auto|]. split; [exact G1|]. split; [|exact G3].
                rewrite nth_error_app1; [exact G2|]. assert (i <> j) by (intros ->; congruence). lia.
          -- rewrite nth_error_app2 in Hb by exact Hi. assert (i = length ch).
             { destruct (i - length ch) as [|z] eqn:Ez; [lia|]. destruct z; discriminate Hb. }
             subst i. rewrite Nat.sub_diag in Hb. injection Hb as <-. exists x. split; [apply Hh; auto|]. split; [lia|]. split; [|lia].
             rewrite E2. symmetry. apply nth_error_None. rewrite app_length. cbn [length]. lia.
        * eapply threads_move; [exact I2|exact Et| |apply le_n|exists [nx]; split; [reflexivity|]| |].
          -- split.
             ++ intros b Hb. injection Hb as <-. apply in_or_app. right. left. reflexivity.
             ++ unfold pc_ok. cbn [th_pc th_next]. split; [reflexivity|]. split; [|apply (proj1 I3)]. exists x. split; [apply Hh; auto|]. rewrite E3. split; [lia|exact HC].
          -- intros i u b Hi Hu Ho _ [<-|[]]. apply Hi. eapply (proj2 I2 i th u t nx); eauto. right. eauto.
          -- intros i u b y _ _ _ Hy. destruct (Nat.eq_dec b n) as [->|Hbn].
             ++ eexists. split; [exact Hhn|]. rewrite Hk in Hy. injection Hy as <-. cbn [bk_off bk_cnt bk_next]. split; [reflexivity|]. split; [reflexivity|].
                intros G. exfalso. apply G. eapply nth_error_In; eauto.
             ++ exists y. split; [apply Hh; auto|auto].
          -- intros b [Hb|(? & ? & Hb)]; [|discriminate Hb]. injection Hb as <-. left. right. eauto.
        * eapply index_frame; [exact I3|]. intros b y _ Hy. destruct (Nat.eq_dec b n) as [->|Hbn].
          -- eexists. split; [exact Hhn|]. rewrite Hk in Hy. injection Hy as <-. reflexivity.
          -- exists y. split; [apply Hh; auto|reflexivity].
        * eapply returned_frame; [exact I4|]. intros b y _ Hy. destruct (Nat.eq_dec b n) as [->|Hbn].
          -- eexists. split; [exact Hhn|]. rewrite Hk in Hy. injection Hy as <-. cbn [bk_cnt]. lia.
          -- exists y. split; [apply Hh; auto|lia].
      + clear Eq. destruct (bk_next k) as [a|] eqn:Ea.
        * rewrite wr_ok by (eapply nth_lt; eauto). cbn [bind]. eexists. exists []. rewrite app_nil_r. split; [reflexivity|].
          split; [|cbn [lb_threads]; apply len_upd].
          set (h' := upd (lb_heap s) nx (mkBucket (bk_next x) (bk_off x + C) (bk_cnt x))).
          assert (Hh : forall b y, b <> nx -> nth_error (lb_heap s) b = Some y -> nth_error h' b = Some y).
          { intros b y Hb Hy. unfold h'. rewrite nth_upd_ne by auto. exact Hy. }
          assert (Hin : forall b, In b ch -> b <> nx) by (intros b Hb ->; contradiction).
          split; [|split; [|split]]; cbn [lb_heap lb_index lb_threads lb_returned].
          -- split; [exact C1|]. split; [exact C2|]. intros i b Hb. destruct (C3 i b Hb) as (y & Hy & G). exists y. split; [|exact G].
             apply Hh; [|exact Hy]. apply Hin. eapply nth_error_In; eauto.
          -- eapply threads_move; [exact I2|exact Et| |apply le_n|exists []; rewrite app_nil_r; split; [reflexivity|intros ? ? ? _ _ _ _ []]| |].
             ++ split; [exact Hnx|]. unfold pc_ok. cbn [th_pc]. split; [|split; [exact Hnin|right; reflexivity]].
                exists (S j). eexists. split; [symmetry; exact Hnext|]. split; [apply nth_upd_eq; eapply nth_lt; eauto|].
                cbn [bk_off bk_next bk_cnt]. split; [lia|auto].
             ++ intros i u b y Hi Hu Ho Hy. exists y. split; [|auto]. apply Hh; [|exact Hy]. intros ->. apply Hi.
                eapply (proj2 I2 i th u t nx); eauto. right. eauto.
             ++ intros b [Hb|(? & ? & Hb)]; [left; left; exact Hb|]. injection Hb as <- <- <-. left. right. eauto.
          -- rewrite <- (app_nil_r ch). eapply index_frame; [exact I3|]. intros b y Hb Hy. exists y. split; [apply Hh; auto|reflexivity].
          -- rewrite <- (app_nil_r ch). eapply returned_frame; [exact I4|]. intros b y Hb Hy. exists y. split; [apply Hh; auto|lia].
        * apply Loc.
          -- split; [exact Hnx|]. unfold pc_ok. cbn [th_pc]. split; [|split; [exact Hnin|left; reflexivity]]. exists j, x. auto.
          -- intros b [Hb|(? & ? & Hb)]; [left; exact Hb|]. injection Hb as <- <- <-. right. eauto.
    - (* Idx *)
      destruct Hpc as (Hb & (k & Hk & Hoff & Hcnt) & Hj).
      destruct (Nat.leb_spec (C * C) id) as [Hid|Hid].
      + destruct (Nat.ltb_spec (S j) (length (lb_index s))) as [Hl|Hl]; apply Loc.
        * split; [exact Hnx|]. unfold pc_ok. cbn [th_pc th_next]. split; [exact Hb|]. split; [|exact Hl]. exists k. split; [exact Hk|]. split; [|exact Hcnt]. rewrite Hoff. nia.
        * intros y [Hy|(? & ? & Hy)]; [left; exact Hy|discriminate Hy].
        * split; [exact Hnx|]. unfold pc_ok. cbn [th_pc th_next]. split; [exact Hb|]. split; [|split; [exact Hj|exact Hid]]. exists k. auto.
        * intros y [Hy|(? & ? & Hy)]; [left; exact Hy|discriminate Hy].
      + destruct (nth_error (lb_index s) j) as [blk|] eqn:Eblk; [|apply nth_error_None in Eblk; lia].
        rewrite (rd_ok _ _ _ _ Eblk). cbn [bind]. assert (I3' := I3). destruct I3' as (X1 & X2). destruct (X2 j blk Eblk) as (Hbl & Hent).
        destruct (in_chain_heap _ _ _ I1 (Hnx b Hb)) as (jb & k' & Hjb & Hk' & Hob & _ & _). rewrite Hk in Hk'. injection Hk' as <-.
        assert (Hdiv : id = (id / C) * C /\ id / C < C).
        { assert (Hm : id mod C = 0).
          { assert (E : jb * C = j * C * C + id) by lia. assert (id = (jb - j * C) * C) by nia.
            rewrite H. apply Nat.mod_mul. lia. }
          split; [assert (Z := Nat.div_mod id C); lia|]. apply Nat.div_lt_upper_bound; lia. }
        rewrite wr_ok by lia. cbn [bind]. eexists. exists []. rewrite app_nil_r. split; [reflexivity|]. split; [|cbn [lb_threads]; apply len_upd].
        split; [|split; [|split]]; cbn [lb_heap lb_index lb_threads lb_returned]; [exact I1| | |exact I4].
        * rewrite len_upd. eapply threads_move; [exact I2|exact Et| |apply le_n|exists []; rewrite app_nil_r; split; [reflexivity|intros ? ? ? _ _ _ _ []]| |].
          -- split; [exact Hnx|]. unfold pc_ok. cbn [th_pc th_next]. exists b, k. auto.
          -- intros i u y z _ _ _ Hz. exists z. auto.
          -- intros y [Hy|(? & ? & Hy)]; [left; left; exact Hy|discriminate Hy].
        * split; [rewrite len_upd; exact X1|]. intros i blk' Hi. destruct (Nat.eq_dec i j) as [->|Hne].
          -- rewrite nth_upd_eq in Hi by (eapply nth_lt; eauto). injection Hi as <-. split; [rewrite len_upd; exact Hbl|].
             intros q y Hq. destruct (Nat.eq_dec (id / C) q) as [<-|Hq'].
             ++ rewrite nth_upd_eq in Hq by lia. injection Hq as <-. split; [apply Hnx; exact Hb|]. exists k. split; [exact Hk|]. lia.
             ++ rewrite nth_upd_ne in Hq by exact Hq'. apply Hent. exact Hq.
          -- rewrite nth_upd_ne in Hi by auto. apply X2. exact Hi.
    - (* Ext *)
      destruct Hpc as (Hb & (k & Hk & Hoff & Hcnt) & Hj & Hid).
      destruct (Nat.ltb_spec (S j) (length (lb_index s))) as [Hl|Hl].
      + apply Loc.
        * split; [exact Hnx|]. unfold pc_ok. cbn [th_pc th_next]. split; [exact Hb|]. split; [|exact Hj]. exists k. auto.
        * intros y [Hy|(? & ? & Hy)]; [left; exact Hy|discriminate Hy].
      + eexists. exists []. rewrite app_nil_r. split; [reflexivity|]. split; [|cbn [lb_threads]; apply len_upd].
        split; [|split; [|split]]; cbn [lb_heap lb_index lb_threads lb_returned]; [exact I1| | |exact I4].
        * rewrite app_length. cbn [length]. eapply threads_move; [exact I2|exact Et| |lia|exists []; rewrite app_nil_r; split; [reflexivity|intros ? ? ? _ _ _ _ []]| |].
          -- split; [exact Hnx|]. unfold pc_ok. cbn [th_pc th_next]. split; [exact Hb|]. split; [|lia]. exists k. split; [exact Hk|]. split; [nia|exact Hcnt].
          -- intros i u y z _ _ _ Hz. exists z. auto.
          -- intros y [Hy|(? & ? & Hy)]; [left; left; exact Hy|discriminate Hy].
        * destruct I3 as (X1 & X2). split; [rewrite app_length; lia|]. intros i blk Hi.
          destruct (Nat.lt_ge_cases i (length (lb_index s))) as [Hlt|Hge].
          -- rewrite nth_error_app1 in Hi by exact Hlt. apply X2. exact Hi.
          -- rewrite nth_error_app2 in Hi by exact Hge. destruct (i - length (lb_index s)) as [|z]; [|destruct z; discriminate Hi]. injection Hi as <-.
             split; [apply repeat_length|]. intros q b' Hq. apply nth_error_In in Hq. apply repeat_spec in Hq. discriminate Hq.
    - (* Ret *)
      destruct Hpc as (b & k & Hb & Hk & Hcnt). rewrite Hb. rewrite (rd_ok _ _ _ _ Hk). cbn [bind]. rewrite wr_ok by (eapply nth_lt; eauto). cbn [bind].
      eexists. exists []. rewrite app_nil_r. split; [reflexivity|]. split; [|cbn [lb_threads]; apply len_upd].
      set (h' := upd (lb_heap s) b (mkBucket (bk_next k) (bk_off k) (S (bk_cnt k)))).
      assert (Hh : forall y z, y <> b -> nth_error (lb_heap s) y = Some z -> nth_error h' y = Some z).
      { intros y z Hy Hz. unfold h'. rewrite nth_upd_ne by auto. exact Hz. }
      assert (Hhb : nth_error h' b = Some (mkBucket (bk_next k) (bk_off k) (S (bk_cnt k)))) by (apply nth_upd_eq; eapply nth_lt; eauto).
      destruct (in_chain_heap _ _ _ I1 (Hnx b Hb)) as (jb & k' & Hjb & Hk' & Hob & _ & _). rewrite Hk in Hk'. injection Hk' as <-.
      split; [|split; [|split]]; cbn [lb_heap lb_index lb_threads lb_returned].
      + destruct I1 as (C1 & C2 & C3). split; [exact C1|]. split; [exact C2|]. intros i y Hy. destruct (C3 i y Hy) as (z & Hz & G1 & G2 & G3).
        destruct (Nat.eq_dec y b) as [->|Hne].
        * eexists. split; [exact Hhb|]. rewrite Hk in Hz. injection Hz as <-. cbn [bk_off bk_next bk_cnt]. split; [exact G1|]. split; [exact G2|lia].
        * exists z. split; [apply Hh; auto|auto].
      + eapply threads_move; [exact I2|exact Et| |apply le_n|exists []; rewrite app_nil_r; split; [reflexivity|intros ? ? ? _ _ _ _ []]| |].
        * split; [cbn [th_next]; intros y Hy; apply Hnx; rewrite Hb; exact Hy|exact I].
        * intros i u y z Hi Hu Ho Hz. exists z. split; [|auto]. apply Hh; [|exact Hz]. intros ->. apply Hi. eapply (proj2 I2 i th u t b); eauto. left. exact Hb.
        * intros y [Hy|(? & ? & Hy)]; [left; left; rewrite Hb; exact Hy|discriminate Hy].
      + rewrite <- (app_nil_r ch). eapply index_frame; [exact I3|]. intros y z _ Hz. destruct (Nat.eq_dec y b) as [->|Hne].
        * eexists. split; [exact Hhb|]. rewrite Hk in Hz. injection Hz as <-. reflexivity.
        * exists z. split; [apply Hh; auto|reflexivity].
      + assert (R : returned_ok h' ch (lb_returned s)).
        { rewrite <- (app_nil_r ch). eapply returned_frame; [exact I4|]. intros y z _ Hz. destruct (Nat.eq_dec y b) as [->|Hne].
          - eexists. split; [exact Hhb|]. rewrite Hk in Hz. injection Hz as <-. cbn [bk_cnt]. lia.
          - exists z. split; [apply Hh; auto|lia]. }
        destruct R as (R1 & R2). split.
        * apply NoDup_app_intro; [exact R1|repeat constructor; intros []|]. intros i Hi [<-|[]].
          destruct I4 as (_ & R3). destruct (R3 _ Hi) as (j & y & z & Hj & Hz & Hr). rewrite Hob in Hr.
          assert (j = jb).
          { destruct I1 as (_ & _ & C3). destruct (C3 j y Hj) as (z' & Hz' & _ & _ & Hc). rewrite Hz in Hz'. injection Hz' as <-. nia. }
          subst j. assert (y = b) by congruence. subst y. rewrite Hk in Hz. injection Hz as <-. lia.
        * intros i Hi. apply in_app_or in Hi. destruct Hi as [Hi|[<-|[]]]; [apply R2; exact Hi|].
          exists jb, b. eexists. split; [exact Hjb|]. split; [exact Hhb|]. cbn [bk_cnt]. lia.
  Qed.

  Lemma init_inv : forall n, Inv [0] (lb_new C n).
  Proof.
    intros n. assert (Hts : forall i t, nth_error (lb_threads (lb_new C n)) i = Some t -> (i = 0 /\ t = mkThread (Some 0) PIdle) \/ t = mkThread None PIdle).
    { intros [|i] t H; cbn [lb_new lb_threads nth_error] in H; [injection H as <-; auto|]. right. apply nth_error_In in H. apply repeat_spec in H. exact H. }
    split; [|split; [|split]]; cbn [lb_new lb_heap lb_index lb_returned].
    - split; [reflexivity|]. split; [repeat constructor; intros []|]. intros [|[|j]] b H; try discriminate H. injection H as <-.
      eexists. split; [reflexivity|]. cbn. repeat split; lia.
    - split.
      + intros i t H. destruct (Hts i t H) as [(-> & ->)| ->]; (split; [|exact I]); cbn [th_next]; intros b Hb; [injection Hb as <-; left; reflexivity|discriminate Hb].
      + assert (X : forall i t b, nth_error (lb_threads (lb_new C n)) i = Some t -> own t b -> i = 0).
        { intros i t b H Ho. destruct (Hts i t H) as [(-> & ->)| ->]; [reflexivity|]. destruct Ho as [Ho|(? & ? & Ho)]; discriminate Ho. }
        intros i i' t t' b H H' Ho Ho'. rewrite (X i t b H Ho), (X i' t' b H' Ho'). reflexivity.
    - split; [cbn; lia|]. intros [|[|j]] blk H; try discriminate H. injection H as <-. split; [cbn [length]; rewrite repeat_length; lia|].
      intros [|i] b H; cbn [nth_error] in H.
      + injection H as <-. split; [left; reflexivity|]. eexists. split; [reflexivity|]. reflexivity.
      + apply nth_error_In in H. apply repeat_spec in H. discriminate H.
    - split; [constructor|intros i []].
  Qed.
  Lemma run_inv : forall sched ch s, Inv ch s -> (forall th sp, In (th, sp) sched -> th < length (lb_threads s)) ->
    exists s' e, lb_run C sched s = Ok s' /\ Inv (ch ++ e) s' /\ length (lb_threads s') = length (lb_threads s).
  Proof.
    induction sched as [|(th, sp) sched IH]; intros ch s I H; cbn [lb_run].
    - exists s, []. rewrite app_nil_r. auto.
    - destruct (step_inv ch s sp th I) as (s1 & e & E & I1 & L1); [eapply H; left; reflexivity|]. rewrite E. cbn [bind].
      destruct (IH _ _ I1) as (s2 & e2 & E2 & I2 & L2); [intros th' sp' H'; rewrite L1; eapply H; right; exact H'|].
      exists s2, (e ++ e2). rewrite app_assoc. split; [exact E2|]. split; [exact I2|lia].
  Qed.

  (** * Access *)
  Lemma walk_chain : forall h ch k j b, chain_ok h ch -> nth_error ch j = Some b -> j + k < length ch ->
    exists b', walk h b k = Ok b' /\ nth_error ch (j + k) = Some b'.
  Proof.
    intros h ch k. induction k as [|k IH]; intros j b Hc Hj Hl; cbn [walk].
    - exists b. rewrite Nat.add_0_r. auto.
    - assert (Hc' := Hc). destruct Hc' as (_ & _ & C3). destruct (C3 j b Hj) as (x & Hx & _ & Hn & _). rewrite (rd_ok _ _ _ _ Hx). cbn [bind]. rewrite Hn.
      destruct (nth_error ch (S j)) as [b'|] eqn:E; [|apply nth_error_None in E; lia].
      destruct (IH (S j) b' Hc E) as (b2 & W & N2); [lia|]. exists b2. split; [exact W|]. rewrite <- N2. f_equal. lia.
  Qed.
  Lemma index_lookup : forall h ch ix j0, (forall j blk, nth_error ix j = Some blk -> length blk = C /\
      forall i b, nth_error blk i = Some (Some b) -> In b ch /\ exists k, nth_error h b = Some k /\ bk_off k = (j0 + j) * (C * C) + i * C) ->
    forall id, exists o, index_to_bucket C ix id = Ok o /\
      forall b, o = Some b -> In b ch /\ exists k, nth_error h b = Some k /\ bk_off k = j0 * (C * C) + id / C * C.
  Proof.
    intros h ch ix. induction ix as [|blk ix IH]; intros j0 H id; cbn [index_to_bucket]; [exists None; split; [reflexivity|discriminate]|].
    destruct (Nat.leb_spec (C * C) id) as [Hid|Hid].
    - destruct (IH (S j0)) with (id := id - C * C) as (o & E & G).
      { intros j blk' Hj. specialize (H (S j) blk' Hj). rewrite Nat.add_succ_r in H. exact H. }
      exists o. split; [exact E|]. intros b Hb. destruct (G b Hb) as (G1 & k & G2 & G3). split; [exact G1|]. exists k. split; [exact G2|].
      rewrite G3. replace (id / C) with ((id - C * C) / C + C).
      + nia.
      + replace id with (id - C * C + C * C) at 2 by lia. rewrite Nat.div_add by lia. reflexivity.
    - destruct (H 0 blk eq_refl) as (Hl & Hb). assert (id / C < C) by (apply Nat.div_lt_upper_bound; lia).
      destruct (nth_error blk (id / C)) as [o|] eqn:E; [|apply nth_error_None in E; lia]. exists o. unfold rd. rewrite E. split; [reflexivity|].
      intros b ->. destruct (Hb _ _ E) as (G1 & k & G2 & G3). rewrite Nat.add_0_r in G3. split; [exact G1|]. exists k. auto.
  Qed.
  (** the cell of a returned index is determined by the chain *)
  Lemma cell_ok : forall ch s i b, Inv ch s -> nth_error ch (i / C) = Some b -> lb_cell C s i = Ok (b, i mod C).
  Proof.
    intros ch s i b (I1 & I2 & I3 & I4) Hi. unfold lb_cell.
    destruct (index_lookup (lb_heap s) ch (lb_index s) 0) with (id := i) as (o & E & G).
    { intros j blk Hj. apply (proj2 I3 j blk Hj). }
    rewrite E. cbn [bind]. destruct o as [b'|].
    - destruct (G b' eq_refl) as (G1 & k & G2 & G3). cbn [Nat.mul Nat.add] in G3.
      destruct (in_chain_heap _ _ _ I1 G1) as (j & k' & Hj & Hk' & Ho & _). rewrite G2 in Hk'. injection Hk' as <-.
      assert (j = i / C) by nia. subst j. rewrite Hj in Hi. injection Hi as ->. reflexivity.
    - destruct (walk_chain (lb_heap s) ch (i / C) 0 0 I1) as (b' & W & N1); [apply I1|eapply nth_lt; eauto|]. rewrite W. cbn [bind].
      cbn [Nat.add] in N1. rewrite Hi in N1. injection N1 as <-. reflexivity.
  Qed.
  Lemma returned_chain : forall ch s i, Inv ch s -> In i (lb_returned s) -> exists b, nth_error ch (i / C) = Some b.
  Proof.
    intros ch s i (I1 & _ & _ & I4) Hi. destruct I4 as (_ & H). destruct (H i Hi) as (j & b & k & Hj & Hk & Hr).
    destruct I1 as (_ & _ & C3). destruct (C3 j b Hj) as (k' & Hk' & _ & _ & Hc). rewrite Hk in Hk'. injection Hk' as <-.
    exists b. replace (i / C) with j; [exact Hj|]. apply Nat.div_unique with (r := i - j * C); lia.
  Qed.

  Lemma lb_distinct : forall n sched, 0 < n -> (forall th sp, In (th, sp) sched -> th < n) ->
    exists s, lb_run C sched (lb_new C n) = Ok s /\ NoDup (lb_returned s) /\
      (forall i, In i (lb_returned s) -> exists c, lb_cell C s i = Ok c) /\
      (forall i i' c, In i (lb_returned s) -> In i' (lb_returned s) -> lb_cell C s i = Ok c -> lb_cell C s i' = Ok c -> i = i').
  Proof.
    intros n sched Hn H. destruct (run_inv sched [0] (lb_new C n) (init_inv n)) as (s & e & E & I & _).
    { intros th sp Hi. cbn [lb_new lb_threads length]. rewrite repeat_length. specialize (H th sp Hi). lia. }
    exists s. split; [exact E|]. split; [apply I|]. split.
    - intros i Hi. destruct (returned_chain _ _ _ I Hi) as (b & Hb). eexists. eapply cell_ok; eauto.
    - intros i i' c Hi Hi' E1 E2. destruct (returned_chain _ _ _ I Hi) as (b & Hb). destruct (returned_chain _ _ _ I Hi') as (b' & Hb').
      rewrite (cell_ok _ _ _ _ I Hb) in E1. rewrite (cell_ok _ _ _ _ I Hb') in E2. rewrite <- E1 in E2. injection E2 as E2 E3.
      subst b'. assert (i / C = i' / C). { apply (proj1 (NoDup_nth_error ([0] ++ e))); [apply I|eapply nth_lt; eauto|congruence]. }
      assert (Z := Nat.div_mod i C). assert (Z' := Nat.div_mod i' C). lia.
  Qed.
  Lemma lb_stable : forall n sched1 sched2 s1 s2 i, 0 < n -> (forall th sp, In (th, sp) (sched1 ++ sched2) -> th < n) ->
    lb_run C sched1 (lb_new C n) = Ok s1 -> lb_run C sched2 s1 = Ok s2 -> In i (lb_returned s1) -> lb_cell C s2 i = lb_cell C s1 i.
  Proof.
    intros n sched1 sched2 s1 s2 i Hn H E1 E2 Hi. destruct (run_inv sched1 [0] (lb_new C n) (init_inv n)) as (s & e & E & I & L).
    { intros th sp Hj. cbn [lb_new lb_threads length]. rewrite repeat_length. specialize (H th sp (in_or_app _ _ _ (or_introl Hj))). lia. }
    rewrite E1 in E. injection E as <-. destruct (run_inv sched2 _ s1 I) as (s' & e2 & E' & I2 & L2).
    { intros th sp Hj. rewrite L. cbn [lb_new lb_threads length]. rewrite repeat_length. specialize (H th sp (in_or_app _ _ _ (or_intror Hj))). lia. }
    rewrite E2 in E'. injection E' as <-. destruct (returned_chain _ _ _ I Hi) as (b & Hb).
    rewrite (cell_ok _ _ _ _ I Hb). eapply cell_ok; [exact I2|]. rewrite nth_error_app1; [exact Hb|eapply nth_lt; eauto].
  Qed.
End Bucket.
